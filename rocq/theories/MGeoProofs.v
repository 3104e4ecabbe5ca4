(** Proofs about planar predicates over machine integers: MGeoModel.v. *)
From Coq Require Import ZArith List Bool Lia Permutation.
From Verif Require Import Outcome IntTypes GeoModel HullProofs MGeoModel.
Import ListNotations.
Local Open Scope Z_scope.

(** The points of an axis-parallel box with a corner at (x0, y0). *)
Definition in_box (x0 y0 W H : Z) (p : pt) : Prop :=
  x0 <= px p <= x0 + W /\ y0 <= py p <= y0 + H.
(** The greatest value of the type in which two values of type [t] are added. *)
Definition top (t : ity) : Z := ihigh (promote t) - 1.

Lemma promote_idem t : promote (promote t) = promote t.
Proof. unfold promote. destruct (bits t <? 32) eqn:E; [reflexivity | now rewrite E]. Qed.
Lemma promote_bits t : 32 <= bits (promote t).
Proof. unfold promote. destruct (bits t <? 32) eqn:E; [cbn; lia | apply Z.ltb_ge in E; exact E]. Qed.
Lemma low_signed t : IntTypes.sgn (promote t) = true -> ilow (promote t) = - top t - 1.
Proof. intro S. unfold top, ilow, ihigh. rewrite S. lia. Qed.
Lemma in_top t z : IntTypes.sgn (promote t) = true -> Z.abs z <= top t -> in_ity (promote t) z.
Proof. intros S A. unfold in_ity. rewrite low_signed by assumption. unfold top in *. lia. Qed.
Lemma top_pos t : 0 < top t.
Proof.
  unfold top, ihigh. pose proof (promote_bits t).
  assert (2 ^ 31 <= 2 ^ (bits (promote t) - 1)) by (apply Z.pow_le_mono_r; lia).
  assert (2 ^ 31 <= 2 ^ bits (promote t)) by (apply Z.pow_le_mono_r; lia).
  change (2 ^ 31) with 2147483648 in *. destruct (IntTypes.sgn (promote t)); lia.
Qed.

Lemma arith_ok t z : IntTypes.sgn (promote t) = true -> Z.abs z <= top t -> iarith (promote t) z = Ok z.
Proof. intros S A. apply iarith_in. now apply in_top. Qed.
Lemma arith_ub t z : IntTypes.sgn (promote t) = true -> top t < z -> iarith (promote t) z = UB.
Proof. intros S A. apply iarith_signed; [assumption|]. unfold in_ity, top in *. lia. Qed.

Lemma abs_mul_le a b A B : Z.abs a <= A -> Z.abs b <= B -> Z.abs (a * b) <= A * B.
Proof. intros. rewrite Z.abs_mul. apply Z.mul_le_mono_nonneg; lia. Qed.

(** Twice the area of a triangle in a box is at most the area of the box. *)
Lemma turn_upper (x0 x1 x2 y0 y1 y2 W H : Z) :
  0 <= x0 <= W -> 0 <= x1 <= W -> 0 <= x2 <= W -> 0 <= y0 <= H -> 0 <= y1 <= H -> 0 <= y2 <= H ->
  (x1 - x0) * (y2 - y0) - (y1 - y0) * (x2 - x0) <= W * H.
Proof.
  intros.
  replace ((x1 - x0) * (y2 - y0) - (y1 - y0) * (x2 - x0))
    with (x0 * (y1 - y2) + x1 * (y2 - y0) + x2 * (y0 - y1)) by ring.
  assert (B : forall x d, 0 <= x <= W -> x * d <= W * Z.max d 0).
  { intros x d Hx. destruct (Z.max_spec d 0) as [[? ->]|[? ->]]; nia. }
  pose proof (B x0 (y1 - y2)). pose proof (B x1 (y2 - y0)). pose proof (B x2 (y0 - y1)).
  assert (Z.max (y1 - y2) 0 + Z.max (y2 - y0) 0 + Z.max (y0 - y1) 0 <= H) by lia.
  nia.
Qed.
Lemma turn_bound x0 y0 W H o a b : in_box x0 y0 W H o -> in_box x0 y0 W H a -> in_box x0 y0 W H b ->
  Z.abs (turn o a b) <= W * H.
Proof.
  unfold in_box, turn. intros. apply Z.abs_le. split.
  - pose proof (turn_upper (px o - x0) (px b - x0) (px a - x0) (py o - y0) (py b - y0) (py a - y0) W H
      ltac:(lia) ltac:(lia) ltac:(lia) ltac:(lia) ltac:(lia) ltac:(lia)). lia.
  - pose proof (turn_upper (px o - x0) (px a - x0) (px b - x0) (py o - y0) (py a - y0) (py b - y0) W H
      ltac:(lia) ltac:(lia) ltac:(lia) ltac:(lia) ltac:(lia) ltac:(lia)). lia.
Qed.

(** ** Orientation *)
Lemma mpsub_ok t l r : IntTypes.sgn (promote t) = true ->
  Z.abs (px l - px r) <= top t -> Z.abs (py l - py r) <= top t -> mpsub t l r = Ok (psub l r).
Proof. intros S A B. unfold mpsub, msub. rewrite arith_ok by assumption. cbn [bind]. now rewrite arith_ok. Qed.

Lemma marea_ok t p q : IntTypes.sgn (promote t) = true ->
  Z.abs (px p * py q) <= top t -> Z.abs (py p * px q) <= top t -> Z.abs (area p q) <= top t ->
  marea t p q = Ok (area p q).
Proof.
  intros S A B C. unfold marea, mmul, msub. rewrite arith_ok by assumption. cbn [bind].
  rewrite arith_ok by assumption. cbn [bind]. now rewrite arith_ok.
Qed.

Lemma top_promote t : top (promote t) = top t.
Proof. unfold top. now rewrite promote_idem. Qed.

Lemma morient3_ok t l r o x0 y0 W H : IntTypes.sgn (promote t) = true ->
  in_box x0 y0 W H l -> in_box x0 y0 W H r -> in_box x0 y0 W H o ->
  W <= top t -> H <= top t -> W * H <= top t -> morient3 t l r o = Ok (orient3 l r o).
Proof.
  intros S Bl Br Bo HW HH HA. unfold in_box in *. unfold morient3.
  rewrite mpsub_ok by (assumption || lia). cbn [bind].
  rewrite mpsub_ok by (assumption || lia). cbn [bind].
  unfold morient. rewrite marea_ok.
  - reflexivity.
  - now rewrite promote_idem.
  - rewrite top_promote. cbn [px py psub]. etransitivity; [apply abs_mul_le with (A := W) (B := H); lia | lia].
  - rewrite top_promote. cbn [px py psub].
    etransitivity; [apply abs_mul_le with (A := H) (B := W); lia | lia].
  - rewrite top_promote. etransitivity; [|exact HA].
    change (Z.abs (turn o r l) <= W * H). apply turn_bound with (x0 := x0) (y0 := y0); unfold in_box; lia.
Qed.

Lemma sgn_promote t : IntTypes.sgn t = true -> IntTypes.sgn (promote t) = true.
Proof. intro S. unfold promote. destruct (bits t <? 32); [reflexivity | exact S]. Qed.

Lemma high_promote t : IntTypes.sgn t = true -> ihigh t <= ihigh (promote t).
Proof.
  intro S. unfold promote. destruct (Z.ltb_spec (bits t) 32); [|lia].
  unfold ihigh. rewrite S. cbn [IntTypes.sgn bits int32]. apply Z.pow_le_mono_r; lia.
Qed.

(** ** Convex hull *)
Section Hull.
  Variable t : ity.
  Variables x0 y0 W H : Z.
  Hypothesis Hb : 0 < bits t.
  Hypothesis HS : IntTypes.sgn t = true.
  Hypothesis HW : W < ihigh t.
  Hypothesis HH : H < ihigh t.
  Hypothesis HA : W * H <= top t.
  Let box := in_box x0 y0 W H.

  Lemma W_top : W <= top t. Proof. pose proof (high_promote t HS). unfold top. lia. Qed.
  Lemma H_top : H <= top t. Proof. pose proof (high_promote t HS). unfold top. lia. Qed.

  Lemma diff_in d M : M < ihigh t -> Z.abs d <= M -> in_ity t d.
  Proof. intros. unfold in_ity, ilow, ihigh in *. rewrite HS in *. lia. Qed.

  Lemma mmake_line_ok a b : box a -> box b -> mmake_line t a b = Ok (make_line a b).
  Proof.
    unfold box, in_box. intros A B. unfold mmake_line. pose proof W_top. pose proof H_top.
    rewrite mpsub_ok by (now apply sgn_promote) || lia. cbn [bind]. unfold mconv, make_line. cbn [px py psub].
    rewrite !wrap_id; [reflexivity | assumption | apply diff_in with H; lia | assumption | apply diff_in with W; lia].
  Qed.

  Lemma morient_pl_ok p a b : box p -> box a -> box b ->
    morient_pl t p (make_line a b) = Ok (orient_pl p (make_line a b)).
  Proof.
    intros Bp Ba Bb. change (orient_pl p (make_line a b)) with (orient3 p b a).
    rewrite <- morient3_ok with (t := t) (x0 := x0) (y0 := y0) (W := W) (H := H);
      auto using sgn_promote, W_top, H_top.
    unfold morient_pl, morient3. cbn [lbegin lvec make_line].
    destruct (mpsub t p a); try reflexivity. cbn [bind].
    rewrite (mpsub_ok t b a); [reflexivity | now apply sgn_promote | |];
      unfold box, in_box in *; pose proof W_top; pose proof H_top; lia.
  Qed.

  Lemma mpartition_ok f g l : (forall p, In p l -> f p = Ok (g p)) ->
    mpartition f l = Ok (filter g l, filter (fun q => negb (g q)) l).
  Proof.
    induction l as [|p l IH]; intros E; cbn [mpartition filter]; [reflexivity|].
    rewrite E by now left. cbn [bind]. rewrite IH by (intros; apply E; now right). cbn [bind].
    destruct (g p); reflexivity.
  Qed.

  Lemma mpop_ok p st : box p -> Forall box st -> mpop t p st = Ok (pop p st).
  Proof.
    intros Bp. induction st as [|a [|b st] IH]; intros F; cbn [mpop pop]; try reflexivity.
    inversion F as [|? ? Fa F']; subst. inversion F' as [|? ? Fb F'']; subst.
    rewrite morient3_ok with (x0 := x0) (y0 := y0) (W := W) (H := H); auto using sgn_promote, W_top, H_top.
    cbn [bind]. destruct (_ =? _); [reflexivity|]. now apply IH.
  Qed.
  Lemma pop_box p st : Forall box st -> Forall box (pop p st).
  Proof.
    induction st as [|a [|b st] IH]; intros F; cbn [pop]; auto.
    destruct (_ =? _); [assumption|]. apply IH. now inversion F.
  Qed.
  Lemma mpush_all_ok l : forall st, Forall box st -> Forall box l ->
    mpush_all t st l = Ok (fold_left push l st) /\ Forall box (fold_left push l st).
  Proof.
    induction l as [|p l IH]; intros st Fs Fl; cbn [mpush_all fold_left]; [now split|].
    inversion Fl; subst. rewrite mpop_ok by assumption. cbn [bind]. apply IH; [|assumption].
    constructor; [assumption | now apply pop_box].
  Qed.

  Lemma sort_box lt l : Forall box l -> Forall box (sort lt l).
  Proof.
    intro F. apply Forall_forall. intros x Hx. rewrite Forall_forall in F. apply F.
    apply (Permutation_in x (sort_perm lt l)). exact Hx.
  Qed.
  Lemma filter_box f l : Forall box l -> Forall box (filter f l).
  Proof. rewrite !Forall_forall. intros F x Hx. apply filter_In in Hx. apply F. tauto. Qed.

  Lemma mconvex_hull_ok pts : Forall box pts -> mconvex_hull t pts = convex_hull pts.
  Proof.
    intro F. destruct pts as [|p [|q ps]]; [reflexivity | reflexivity|].
    unfold mconvex_hull, convex_hull.
    set (pts := p :: q :: ps) in *. set (ps' := q :: ps) in *.
    assert (Ba : box (min_point p ps')).
    { rewrite Forall_forall in F. apply F. apply min_point_spec. }
    assert (Bb : box (max_point p ps')).
    { rewrite Forall_forall in F. apply F. apply max_point_spec. }
    rewrite mmake_line_ok by assumption. cbn [bind].
    set (l := make_line (min_point p ps') (max_point p ps')).
    rewrite (mpartition_ok _ (fun q => negb (orient_pl q l =? o_right))).
    2:{ intros x Hx. unfold l. rewrite morient_pl_ok; [reflexivity | | assumption | assumption].
        rewrite Forall_forall in F. now apply F. }
    cbn [bind].
    set (lo := filter _ pts). set (up := filter (fun q => negb _) pts).
    assert (Fl : Forall box (sort pless lo)) by (apply sort_box, filter_box, F).
    assert (Fu : Forall box (sort pgreater up)) by (apply sort_box, filter_box, F).
    destruct (sort pless lo) as [|p0 [|p1 rest]]; try reflexivity.
    inversion Fl as [|? ? F0 Fl']; subst. inversion Fl' as [|? ? F1 Fr]; subst.
    destruct (mpush_all_ok (rest ++ sort pgreater up) [p1; p0]) as [E Fs].
    { apply Forall_cons; [|apply Forall_cons]; auto. }
    { apply Forall_app. now split. }
    rewrite E. cbn [bind]. rewrite mpop_ok by assumption. reflexivity.
  Qed.
End Hull.

(** ** Area of a polygon *)
Lemma cyc_In poly i : poly <> [] -> In (cyc poly i) poly.
Proof.
  intro N. unfold cyc. apply nth_In. destruct poly as [|p l]; [easy|].
  assert (0 <= i mod Z.of_nat (length (p :: l)) < Z.of_nat (length (p :: l))).
  { apply Z.mod_pos_bound. cbn [length]. lia. }
  lia.
Qed.

Lemma marea_loop_ok t poly X Y : IntTypes.sgn (promote t) = true -> poly <> [] ->
  (forall p, In p poly -> Z.abs (px p) <= X /\ Z.abs (py p) <= Y) -> 2 * Y <= top t ->
  forall n i res, Z.abs res + Z.of_nat n * (2 * (X * Y)) <= top t ->
  marea_loop t poly n i res = Ok (area_loop poly n i res).
Proof.
  intros S N B HY. induction n as [|n IH]; intros i res HT; [reflexivity|].
  cbn [marea_loop area_loop].
  destruct (B _ (cyc_In poly (i + 1) N)) as [_ B1]. destruct (B _ (cyc_In poly (i - 1) N)) as [_ B2].
  destruct (B _ (cyc_In poly i N)) as [B0 _].
  set (d := py (cyc poly (i + 1)) - py (cyc poly (i - 1))) in *.
  assert (Hd : Z.abs d <= 2 * Y) by lia.
  pose proof (abs_mul_le _ _ _ _ B0 Hd) as M. replace (X * (2 * Y)) with (2 * (X * Y)) in M by ring.
  assert (0 <= X * Y) by (apply Z.mul_nonneg_nonneg; lia).
  rewrite Nat2Z.inj_succ in HT.
  assert (0 <= Z.of_nat n * (2 * (X * Y))) by (apply Z.mul_nonneg_nonneg; lia).
  unfold msub, mmul, madd. rewrite arith_ok by (assumption || lia). cbn [bind].
  rewrite arith_ok by (assumption || (fold d; lia)). cbn [bind].
  rewrite arith_ok by (assumption || lia). cbn [bind]. apply IH. fold d. lia.
Qed.

Lemma mod_mul_wrap t a b : 0 < bits t ->
  (a * IntTypes.wrap t b) mod 2 ^ bits t = (a * b) mod 2 ^ bits t.
Proof. intro H. rewrite Zmult_mod, wrap_mod, <- Zmult_mod by assumption. reflexivity. Qed.
Lemma mod_add_wrap t a b : 0 < bits t ->
  (a + IntTypes.wrap t b) mod 2 ^ bits t = (a + b) mod 2 ^ bits t.
Proof. intro H. rewrite Zplus_mod, wrap_mod, <- Zplus_mod by assumption. reflexivity. Qed.

Lemma marea_loop_unsigned t poly : IntTypes.sgn (promote t) = false ->
  forall n i r r', r = IntTypes.wrap (promote t) r' ->
  marea_loop t poly n i r = Ok (IntTypes.wrap (promote t) (area_loop poly n i r')).
Proof.
  intros S. pose proof (promote_bits t) as HB.
  induction n as [|n IH]; intros i r r' E; cbn [marea_loop area_loop]; [now rewrite E|].
  unfold msub, mmul, madd. rewrite !iarith_unsigned by (assumption || lia). cbn [bind].
  rewrite !iarith_unsigned by (assumption || lia). cbn [bind].
  rewrite !iarith_unsigned by (assumption || lia). cbn [bind].
  apply IH. apply wrap_congr; [lia|]. rewrite mod_add_wrap by lia.
  subst r. rewrite Z.add_comm, mod_add_wrap by lia.
  rewrite Zplus_mod, mod_mul_wrap, <- Zplus_mod by lia. f_equal. lia.
Qed.
