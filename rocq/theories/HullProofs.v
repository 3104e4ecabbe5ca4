(** Proofs about the convex hull: GeoModel.v. *)
From Coq Require Import ZArith List Bool Lia Permutation Sorted.
From Verif Require Import Outcome GeoModel.
Import ListNotations.
Local Open Scope Z_scope.

(** [turn o a b]: twice the signed area of the triangle; positive when [b] is to
    the left of the directed line from [o] to [a]. *)
Definition turn (o a b : pt) : Z :=
  (px a - px o) * (py b - py o) - (py a - py o) * (px b - px o).

(** The lexicographic order. *)
Definition below (p q : pt) : Prop := px p < px q \/ (px p = px q /\ py p <= py q).
Definition sbelow (p q : pt) : Prop := px p < px q \/ (px p = px q /\ py p < py q).

Lemma pt_eq p q : px p = px q -> py p = py q -> p = q.
Proof. destruct p, q; cbn; congruence. Qed.
Lemma below_refl p : below p p. Proof. unfold below; lia. Qed.
Lemma below_trans p q r : below p q -> below q r -> below p r. Proof. unfold below; lia. Qed.
Lemma below_anti p q : below p q -> below q p -> p = q.
Proof. unfold below; intros; apply pt_eq; lia. Qed.
Lemma below_total p q : below p q \/ below q p. Proof. unfold below; lia. Qed.
Lemma sbelow_below p q : sbelow p q -> below p q. Proof. unfold below, sbelow; lia. Qed.
Lemma below_neq p q : below p q -> p <> q -> sbelow p q.
Proof.
  unfold below, sbelow. intros H N. destruct (Z.eq_dec (px p) (px q)), (Z.eq_dec (py p) (py q)); try lia.
  exfalso. apply N. now apply pt_eq.
Qed.

Lemma orient3_right p t o : (orient3 p t o =? o_right) = (0 <? turn o t p).
Proof.
  unfold orient3, orient, area, o_right, turn, psub. cbn [px py].
  set (z := (px t - px o) * (py p - py o) - (py t - py o) * (px p - px o)).
  destruct (Z.ltb_spec 0 z) as [H|H].
  - rewrite Z.sgn_pos by lia. reflexivity.
  - apply Z.eqb_neq. destruct (Z.eq_dec z 0) as [->|]; [cbn; lia|]. rewrite Z.sgn_neg by lia. lia.
Qed.

(** ** The cone lemma *)
(** Vectors [(x, y)] with [x > 0] or [x = 0] and [y >= 0] form a half-plane in which
    the sign of the cross product is transitive. *)
Definition lex (x y : Z) : Prop := 0 < x \/ (x = 0 /\ 0 <= y).
Definition slex (x y : Z) : Prop := 0 < x \/ (x = 0 /\ 0 < y).

Lemma lex_comb A B ux uy wx wy : 0 <= A -> 0 <= B -> lex ux uy -> lex wx wy ->
  lex (A * wx + B * ux) (A * wy + B * uy).
Proof.
  unfold lex. intros HA HB HU HW.
  assert (0 <= A * wx) by (apply Z.mul_nonneg_nonneg; lia).
  assert (0 <= B * ux) by (apply Z.mul_nonneg_nonneg; lia).
  destruct (Z.eq_dec (A * wx) 0) as [E1|E1], (Z.eq_dec (B * ux) 0) as [E2|E2]; try lia.
  right. split; [lia|].
  assert (0 <= A * wy).
  { apply Z.mul_eq_0 in E1. destruct E1 as [->|E1]; [lia|]. apply Z.mul_nonneg_nonneg; lia. }
  assert (0 <= B * uy).
  { apply Z.mul_eq_0 in E2. destruct E2 as [->|E2]; [lia|]. apply Z.mul_nonneg_nonneg; lia. }
  lia.
Qed.

Lemma lex_scale C vx vy : slex vx vy -> lex (C * vx) (C * vy) -> 0 <= C.
Proof.
  unfold lex, slex. intros V K. destruct (Z.lt_ge_cases C 0) as [N|]; [exfalso|auto].
  destruct V as [V|[-> V]]; [assert (C * vx < 0) by (apply Z.mul_neg_pos; auto)
                            | assert (C * vy < 0) by (apply Z.mul_neg_pos; auto)]; lia.
Qed.

Lemma cone ux uy vx vy wx wy : lex ux uy -> slex vx vy -> lex wx wy ->
  0 <= ux * vy - uy * vx -> 0 <= vx * wy - vy * wx -> 0 <= ux * wy - uy * wx.
Proof.
  intros HU HV HW H1 H2. apply (lex_scale _ vx vy HV).
  replace ((ux * wy - uy * wx) * vx) with ((ux * vy - uy * vx) * wx + (vx * wy - vy * wx) * ux) by ring.
  replace ((ux * wy - uy * wx) * vy) with ((ux * vy - uy * vx) * wy + (vx * wy - vy * wx) * uy) by ring.
  apply lex_comb; auto.
Qed.

Lemma slex_scale C vx vy : slex vx vy -> slex (C * vx) (C * vy) -> 0 < C.
Proof.
  unfold slex. intros V K. destruct (Z.lt_ge_cases 0 C) as [|N]; [auto|exfalso].
  destruct V as [V|[-> V]]; [assert (C * vx <= 0) by (apply Z.mul_nonpos_nonneg; lia)
                            | assert (C * vy <= 0) by (apply Z.mul_nonpos_nonneg; lia)]; try lia.
  destruct (Z.eq_dec C 0) as [->|]; [lia|]. assert (C * vx < 0) by (apply Z.mul_neg_pos; lia). lia.
Qed.

Lemma slex_comb A B ux uy wx wy : 0 < A -> 0 <= B -> lex ux uy -> slex wx wy ->
  slex (A * wx + B * ux) (A * wy + B * uy).
Proof.
  unfold lex, slex. intros HA HB HU HW.
  assert (0 <= A * wx) by (apply Z.mul_nonneg_nonneg; lia).
  assert (0 <= B * ux) by (apply Z.mul_nonneg_nonneg; lia).
  destruct (Z.eq_dec (A * wx) 0) as [E1|E1], (Z.eq_dec (B * ux) 0) as [E2|E2]; try lia.
  right. split; [lia|].
  assert (0 < A * wy).
  { apply Z.mul_eq_0 in E1. apply Z.mul_pos_pos; lia. }
  assert (0 <= B * uy).
  { apply Z.mul_eq_0 in E2. destruct E2 as [->|E2]; [lia|]. apply Z.mul_nonneg_nonneg; lia. }
  lia.
Qed.

(** Strict if the first product is positive and the last vector is not zero. *)
Lemma cone_strict ux uy vx vy wx wy : lex ux uy -> slex vx vy -> slex wx wy ->
  0 < ux * vy - uy * vx -> 0 <= vx * wy - vy * wx -> 0 < ux * wy - uy * wx.
Proof.
  intros HU HV HW H1 H2. apply (slex_scale _ vx vy HV).
  replace ((ux * wy - uy * wx) * vx) with ((ux * vy - uy * vx) * wx + (vx * wy - vy * wx) * ux) by ring.
  replace ((ux * wy - uy * wx) * vy) with ((ux * vy - uy * vx) * wy + (vx * wy - vy * wx) * uy) by ring.
  apply slex_comb; auto.
Qed.

Lemma cone_strict2 ux uy vx vy wx wy : slex ux uy -> slex vx vy -> lex wx wy ->
  0 <= ux * vy - uy * vx -> 0 < vx * wy - vy * wx -> 0 < ux * wy - uy * wx.
Proof.
  intros HU HV HW H1 H2. apply (slex_scale _ vx vy HV).
  replace ((ux * wy - uy * wx) * vx) with ((vx * wy - vy * wx) * ux + (ux * vy - uy * vx) * wx) by ring.
  replace ((ux * wy - uy * wx) * vy) with ((vx * wy - vy * wx) * uy + (ux * vy - uy * vx) * wy) by ring.
  apply slex_comb; auto.
Qed.

Lemma below_lex p q : below p q -> lex (px q - px p) (py q - py p).
Proof. unfold below, lex. lia. Qed.
Lemma sbelow_slex p q : sbelow p q -> slex (px q - px p) (py q - py p).
Proof. unfold sbelow, slex. lia. Qed.

(** ** Chains *)
(** A stack of points, the top first: increasing and turning left, with no point
    of [Q] to the right of an edge; [c] is the bottom. *)
Inductive edge : list pt -> pt -> pt -> Prop :=
| edge_top t o st : edge (t :: o :: st) o t
| edge_below t st u v : edge st u v -> edge (t :: st) u v.
Inductive triple : list pt -> pt -> pt -> pt -> Prop :=
| triple_top x t o st : triple (x :: t :: o :: st) o t x
| triple_below x st u v w : triple st u v w -> triple (x :: st) u v w.

Record chain (c : pt) (st : list pt) (Q : list pt) : Prop := {
  ch_bottom : exists s, st = s ++ [c];
  ch_incl : incl st Q;
  ch_low : forall q, In q Q -> below c q;
  ch_step : forall o t, edge st o t -> below o t;
  ch_left : forall o t x, triple st o t x -> 0 < turn o t x;
  ch_cover : forall o t q, edge st o t -> In q Q -> 0 <= turn o t q
}.

Lemma chain_tail c t o st Q : chain c (t :: o :: st) Q -> chain c (o :: st) Q.
Proof.
  intros [[s B] I Lo St Le Co]. constructor; auto.
  - destruct s as [|x s]; cbn in B; [discriminate|]. inversion B. eauto.
  - intros q Hq. apply I. now right.
  - intros u v H. apply St. now constructor.
  - intros u v w H. apply Le. now constructor.
  - intros u v q H. apply Co. now constructor.
Qed.

Definition capped (t : pt) (Q : list pt) (p : pt) : Prop :=
  (forall q, In q Q -> below q t)
  \/ exists x, sbelow t x /\ turn t x p <= 0 /\ forall q, In q Q -> 0 <= turn t x q.

Lemma capped_pop c t o st Q p : chain c (t :: o :: st) Q -> capped t Q p -> turn o t p <= 0 -> capped o Q p.
Proof.
  intros C H T.
  assert (E : edge (t :: o :: st) o t) by constructor.
  assert (B := ch_step _ _ _ C _ _ E).
  destruct (Z.eq_dec (px o) (px t)), (Z.eq_dec (py o) (py t)).
  1: { assert (o = t) by now apply pt_eq. now subst. }
  all: right; exists t; (split; [unfold below, sbelow in *; lia|]); split; auto;
    intros q Hq; now apply (ch_cover _ _ _ C).
Qed.

(** All edges see the new point on the left. *)
Lemma far_left c p Q : (forall q, In q Q -> below q p) ->
  forall st t o, chain c (t :: o :: st) Q -> 0 < turn o t p ->
  forall u v, edge (t :: o :: st) u v -> 0 < turn u v p.
Proof.
  intros Hp st. induction st as [|o2 st IH]; intros t o C T u v E.
  - inversion E as [|? ? ? ? E1]; subst; auto. inversion E1 as [|? ? ? ? E2]; subst. inversion E2.
  - inversion E as [|? ? ? ? E1]; subst; auto.
    apply (IH o o2); auto; [eapply chain_tail; eauto|].
    assert (T1 : 0 < turn o2 o t) by (apply (ch_left _ _ _ C); constructor).
    assert (B1 : below o2 o) by (apply (ch_step _ _ _ C); repeat constructor).
    assert (B2 : below o t) by (apply (ch_step _ _ _ C); constructor).
    assert (B3 : below t p) by (apply Hp, (ch_incl _ _ _ C); now left).
    assert (S2 : sbelow o t).
    { apply below_neq; auto. intros ->. unfold turn in T1. nia. }
    assert (S3 : sbelow t p).
    { apply below_neq; auto. intros ->. unfold turn in T. nia. }
    apply below_lex in B1. apply sbelow_slex in S2, S3.
    assert (K : 0 < (px o - px o2) * (py p - py t) - (py o - py o2) * (px p - px t)).
    { apply (cone_strict _ _ (px t - px o) (py t - py o)); auto; unfold turn in *; nia. }
    unfold turn in *. nia.
Qed.

Lemma chain_add c t st Q p : chain c (t :: st) Q -> capped t Q p ->
  (forall q, In q Q -> below q p) ->
  match st with [] => True | o :: _ => 0 < turn o t p end ->
  chain c (p :: t :: st) (p :: Q).
Proof.
  intros C Cap Hp T.
  assert (Bt : below t p) by (apply Hp, (ch_incl _ _ _ C); now left).
  assert (Cin : In c Q).
  { destruct (ch_bottom _ _ _ C) as [s E]. apply (ch_incl _ _ _ C). rewrite E. apply in_or_app. right. now left. }
  (* the new edge *)
  assert (New : forall q, In q Q -> 0 <= turn t p q).
  { intros q Hq. destruct (below_total t q) as [Tq|Tq].
    - destruct Cap as [Cap|(x & Sx & Px & Cx)].
      + assert (q = t) by (apply below_anti; auto). subst. unfold turn. nia.
      + apply below_lex in Bt, Tq. apply sbelow_slex in Sx.
        assert (K := cone _ _ _ _ _ _ Bt Sx Tq). specialize (Cx q Hq). unfold turn in *. nia.
    - destruct st as [|o st].
      + destruct (ch_bottom _ _ _ C) as [[|y s] E]; cbn in E; [|destruct s; discriminate].
        inversion E; subst. assert (q = c) by (apply below_anti; auto; now apply (ch_low _ _ _ C)).
        subst. unfold turn. nia.
      + assert (Bo : below o t) by (apply (ch_step _ _ _ C); constructor).
        assert (So : sbelow o t). { apply below_neq; auto. intros ->. unfold turn in T. nia. }
        assert (Cq : 0 <= turn o t q) by (apply (ch_cover _ _ _ C); auto; constructor).
        apply below_lex in Bt, Tq. apply sbelow_slex in So.
        assert (K := cone _ _ _ _ _ _ Tq So Bt). unfold turn in *. nia. }
  (* the old edges *)
  assert (Old : forall u v, edge (t :: st) u v -> 0 <= turn u v p).
  { intros u v E. destruct st as [|o st]; [inversion E as [|? ? ? ? E1]; inversion E1|].
    apply Z.lt_le_incl. eapply far_left; eauto. }
  constructor.
  - destruct (ch_bottom _ _ _ C) as [s E]. exists (p :: s). now rewrite E.
  - intros q [<-|Hq]; [now left|]. right. now apply (ch_incl _ _ _ C).
  - intros q [<-|Hq]; [|now apply (ch_low _ _ _ C)].
    now apply Hp.
  - intros u v E. inversion E as [|? ? ? ? E1]; subst; auto. now apply (ch_step _ _ _ C).
  - intros u v w E. inversion E as [|? ? ? ? ? E1]; subst; [exact T|]. now apply (ch_left _ _ _ C).
  - intros u v q E [<-|Hq]; inversion E as [|? ? ? ? E1]; subst; auto.
    + unfold turn. nia.
    + now apply (ch_cover _ _ _ C).
Qed.

(** What remains on the stack after [pop]. *)
Lemma chain_pop c p Q : (forall q, In q Q -> below q p) ->
  forall st t, chain c (t :: st) Q -> capped t Q p ->
  exists t' st', pop p (t :: st) = t' :: st' /\ chain c (t' :: st') Q /\ capped t' Q p
                 /\ match st' with [] => True | o :: _ => 0 < turn o t' p end.
Proof.
  intros Hp st. induction st as [|o st IH]; intros t C Cap.
  - exists t, []. auto.
  - change (pop p (t :: o :: st)) with (if orient3 p t o =? o_right then t :: o :: st else pop p (o :: st)).
    rewrite orient3_right. destruct (Z.ltb_spec 0 (turn o t p)) as [H|H].
    + exists t, (o :: st). auto.
    + apply IH; [eapply chain_tail; eauto | eapply capped_pop; eauto].
Qed.

(** Pushing points in increasing order. *)
Lemma chain_push c st Q p :
  chain c st Q -> (forall q, In q Q -> below q p) ->
  match st with [] => False | t :: _ => forall q, In q Q -> below q t end ->
  chain c (push st p) (p :: Q) /\ match push st p with t :: _ :: _ => t = p | _ => False end.
Proof.
  intros C Hp Top. destruct st as [|t st]; [easy|].
  destruct (chain_pop c p Q Hp st t C (or_introl Top)) as (t' & st' & E & C' & Cap & T).
  unfold push. rewrite E. split; [now apply chain_add | reflexivity].
Qed.

Lemma chain_push_all c ps : forall st Q,
  chain c st Q -> (forall q, In q Q -> match st with [] => False | t :: _ => below q t end) ->
  match st with [] => False | t :: _ => StronglySorted below (t :: ps) end ->
  chain c (fold_left push ps st) (rev ps ++ Q)
  /\ match fold_left push ps st with [] => False | t :: _ => forall q, In q (rev ps ++ Q) -> below q t end
  /\ (ps = [] \/ (2 <= length (fold_left push ps st))%nat).
Proof.
  induction ps as [|p ps IH]; intros st Q C Top Srt.
  - cbn. destruct st as [|t st].
    + destruct (ch_bottom _ _ _ C) as [[|] E]; discriminate.
    + auto.
  - cbn [fold_left rev]. destruct st as [|t st]; [easy|].
    inversion Srt as [|? ? S1 S2]; subst. inversion S2 as [|? ? S3 S4]; subst.
    assert (Hp : forall q, In q Q -> below q p) by (intros q Hq; eapply below_trans; [apply Top; auto|auto]).
    destruct (chain_push c (t :: st) Q p C Hp) as [C' T']; [intros; now apply Top|].
    destruct (push (t :: st) p) as [|x [|y st']] eqn:E; try easy. subst x.
    destruct (IH (p :: y :: st') (p :: Q) C') as (A & B & D).
    + intros q [<-|Hq]; [apply below_refl | auto].
    + exact S1.
    + rewrite <- app_assoc. cbn [app]. split; [exact A|]. split; [exact B|].
      right. destruct D as [->|D]; [cbn; lia | exact D].
Qed.

(** ** Splitting the stack *)
Lemma pop_cons2 p t o st : pop p (t :: o :: st) = if 0 <? turn o t p then t :: o :: st else pop p (o :: st).
Proof. cbn [pop]. now rewrite orient3_right. Qed.

Definition kept (b : pt) (tail : list pt) (p : pt) : Prop :=
  match tail with [] => True | c :: _ => 0 < turn c b p end.

Lemma pop_app p b tail : kept b tail p -> forall s, pop p (s ++ b :: tail) = pop p (s ++ [b]) ++ tail.
Proof.
  intros K s. induction s as [|x s IH].
  - cbn [app]. destruct tail as [|c tail]; [reflexivity|]. rewrite pop_cons2.
    apply Z.ltb_lt in K. now rewrite K.
  - destruct s as [|y s].
    + cbn [app] in *. rewrite !pop_cons2. destruct (0 <? turn b x p); [reflexivity | exact IH].
    + cbn [app] in *. rewrite !pop_cons2. destruct (0 <? turn y x p); [cbn [app]; now rewrite <- app_assoc | exact IH].
Qed.

Lemma pop_form p b : forall s, exists s', pop p (s ++ [b]) = s' ++ [b] /\ incl s' s.
Proof.
  intros s. induction s as [|x s (s' & IH & I)].
  - exists []. now split.
  - destruct s as [|y s].
    + cbn [app]. rewrite pop_cons2. destruct (0 <? turn b x p).
      * now exists [x].
      * exists []. split; [reflexivity | easy].
    + cbn [app] in *. rewrite pop_cons2. destruct (0 <? turn y x p).
      * now exists (x :: y :: s).
      * exists s'. split; [exact IH|]. now apply incl_tl.
Qed.

Lemma push_app b tail ps : forall s, (forall p, In p ps -> kept b tail p) ->
  exists s', fold_left push ps (s ++ b :: tail) = s' ++ b :: tail
             /\ fold_left push ps (s ++ [b]) = s' ++ [b] /\ incl s' (ps ++ s).
Proof.
  induction ps as [|p ps IH]; intros s K.
  - exists s. cbn. auto using incl_refl.
  - cbn [fold_left]. unfold push at 2 4. rewrite pop_app by (apply K; now left).
    destruct (pop_form p b s) as (s1 & -> & I1).
    destruct (IH (p :: s1)) as (s' & A & B & I); [intros; apply K; now right|].
    exists s'. rewrite <- app_assoc. cbn [app] in *. split; [exact A|]. split; [exact B|].
    intros q Hq. apply I in Hq. apply in_app_or in Hq. destruct Hq as [Hq|[<-|Hq]].
    + right. apply in_or_app. now left.
    + now left.
    + right. apply in_or_app. right. now apply I1.
Qed.

Lemma edge_app b l2 u v : forall l1, edge (l1 ++ b :: l2) u v -> edge (l1 ++ [b]) u v \/ edge (b :: l2) u v.
Proof.
  induction l1 as [|x l1 IH]; intros E; [now right|].
  destruct l1 as [|y l1]; cbn [app] in *.
  - inversion E as [|? ? ? ? E1]; subst; [left; constructor | now right].
  - inversion E as [|? ? ? ? E1]; subst; [left; constructor|].
    destruct (IH E1); [left; now constructor | now right].
Qed.

Lemma triple_app b l2 u v w : forall l1, triple (l1 ++ b :: l2) u v w ->
  triple (l1 ++ [b]) u v w \/ triple (b :: l2) u v w
  \/ exists l y l', l1 = l ++ [y] /\ l2 = u :: l' /\ v = b /\ w = y.
Proof.
  induction l1 as [|x l1 IH]; intros E; [right; now left|].
  destruct l1 as [|y [|z l1]]; cbn [app] in *.
  - inversion E as [|? ? ? ? ? E1]; subst; [|right; now left].
    right. right. exists [], w. eauto.
  - inversion E as [|? ? ? ? ? E1]; subst; [left; constructor|].
    destruct (IH E1) as [H|[H|(l & z & l' & H1 & H2)]];
      [left; now constructor | right; now left | right; right].
    exists (x :: l), z, l'. rewrite H1. auto.
  - inversion E as [|? ? ? ? ? E1]; subst; [left; constructor|].
    destruct (IH E1) as [H|[H|(l & z' & l' & H1 & H2)]];
      [left; now constructor | right; now left | right; right].
    exists (x :: l), z', l'. rewrite H1. auto.
Qed.

(** ** Mirroring in the origin *)
Definition neg (p : pt) : pt := P (- px p) (- py p).
Lemma neg_neg p : neg (neg p) = p.
Proof. apply pt_eq; cbn; lia. Qed.
Lemma turn_neg o a b : turn (neg o) (neg a) (neg b) = turn o a b.
Proof. unfold turn. cbn. ring. Qed.
Lemma below_neg p q : below (neg p) (neg q) <-> below q p.
Proof. unfold below. cbn. lia. Qed.
Lemma sbelow_neg p q : sbelow (neg p) (neg q) <-> sbelow q p.
Proof. unfold sbelow. cbn. lia. Qed.
Lemma pop_neg p : forall st, pop (neg p) (map neg st) = map neg (pop p st).
Proof.
  induction st as [|t st IH]; [reflexivity|].
  destruct st as [|o st]; [reflexivity|]. cbn [map] in *. rewrite !pop_cons2, turn_neg.
  destruct (0 <? turn o t p); [reflexivity | exact IH].
Qed.
Lemma push_neg ps : forall st, fold_left push (map neg ps) (map neg st) = map neg (fold_left push ps st).
Proof.
  induction ps as [|p ps IH]; intros st; [reflexivity|].
  cbn [map fold_left]. unfold push at 2 4. rewrite pop_neg. apply (IH (p :: pop p st)).
Qed.
Lemma edge_neg st u v : edge st u v -> edge (map neg st) (neg u) (neg v).
Proof. induction 1; cbn [map]; constructor; auto. Qed.
Lemma triple_neg st u v w : triple st u v w -> triple (map neg st) (neg u) (neg v) (neg w).
Proof. induction 1; cbn [map]; constructor; auto. Qed.

(** ** Sorting *)
Section SortFacts.
  Context (lt : pt -> pt -> bool) (R : pt -> pt -> Prop).
  Hypothesis Rt : forall x y, lt x y = true -> R x y.
  Hypothesis Rf : forall x y, lt x y = false -> R y x.
  Hypothesis Rtrans : forall x y z, R x y -> R y z -> R x z.

  Lemma insert_perm x l : Permutation (insert lt x l) (x :: l).
  Proof.
    induction l as [|y l IH]; cbn; [reflexivity|]. destruct (lt y x); [|reflexivity].
    rewrite IH. constructor.
  Qed.
  Lemma sort_perm l : Permutation (sort lt l) l.
  Proof. induction l as [|x l IH]; cbn; [reflexivity|]. rewrite insert_perm. now constructor. Qed.
  Lemma insert_sorted x l : StronglySorted R l -> StronglySorted R (insert lt x l).
  Proof.
    induction 1 as [|y l S IH F]; cbn; [repeat constructor|].
    destruct (lt y x) eqn:E.
    - constructor; auto. rewrite insert_perm. constructor; auto.
    - constructor; [now constructor|]. constructor; [now apply Rf|].
      apply Rf in E. eapply Forall_impl; [|exact F]. cbn. eauto.
  Qed.
  Lemma sort_sorted l : StronglySorted R (sort lt l).
  Proof. induction l; cbn; [constructor|]. now apply insert_sorted. Qed.
End SortFacts.

Lemma pless_true p q : pless p q = true -> sbelow p q.
Proof.
  unfold pless, sbelow. rewrite orb_true_iff, andb_true_iff, Z.eqb_eq, !Z.ltb_lt. lia.
Qed.
Lemma pless_false p q : pless p q = false -> below q p.
Proof.
  unfold pless, below. rewrite orb_false_iff, andb_false_iff, Z.eqb_neq, !Z.ltb_ge. lia.
Qed.

Lemma min_point_spec l : forall p, In (min_point p l) (p :: l) /\ forall q, In q (p :: l) -> below (min_point p l) q.
Proof.
  induction l as [|x l IH]; intros p; cbn [min_point].
  - split; [now left|]. intros q [<-|[]]. apply below_refl.
  - destruct (pless x p) eqn:E.
    + destruct (IH x) as [A B]. split; [now right|].
      intros q [<-|Hq]; [|now apply B]. eapply below_trans; [apply B; now left|].
      now apply sbelow_below, pless_true.
    + destruct (IH p) as [A B]. split; [destruct A; [now left | right; now right]|].
      intros q [<-|[<-|Hq]]; try (apply B; now (left + right)).
      eapply below_trans; [apply B; now left|]. now apply pless_false.
Qed.
Lemma max_point_spec l : forall p, In (max_point p l) (p :: l) /\ forall q, In q (p :: l) -> below q (max_point p l).
Proof.
  induction l as [|x l IH]; intros p; cbn [max_point].
  - split; [now left|]. intros q [<-|[]]. apply below_refl.
  - destruct (pless x p) eqn:E.
    + destruct (IH p) as [A B]. split; [destruct A; [now left | right; now right]|].
      intros q [<-|[<-|Hq]]; try (apply B; now (left + right)).
      eapply below_trans; [|apply B; now left]. now apply sbelow_below, pless_true.
    + destruct (IH x) as [A B]. split; [now right|].
      intros q [<-|Hq]; [|now apply B]. eapply below_trans; [|apply B; now left].
      now apply pless_false.
Qed.

Lemma comp_spec a b q : negb (orient_pl q (make_line a b) =? o_right) = (turn a b q <=? 0).
Proof.
  unfold orient_pl, make_line, orient, area, o_right. cbn [lbegin lvec psub px py].
  change ((px b - px a) * (py q - py a) - (py b - py a) * (px q - px a)) with (turn a b q).
  destruct (Z.leb_spec (turn a b q) 0) as [H|H].
  - apply negb_true_iff, Z.eqb_neq. destruct (Z.eq_dec (turn a b q) 0) as [->|]; [cbn; lia|].
    rewrite Z.sgn_neg by lia. lia.
  - rewrite Z.sgn_pos by lia. reflexivity.
Qed.

(** ** Strictness *)
Lemma chain_strict c Q : forall st, chain c st Q -> (exists q, In q st /\ q <> c) ->
  forall u v, edge st u v -> sbelow u v.
Proof.
  induction st as [|t [|o st] IH]; intros C (q & Hq & N) u v E.
  - inversion E.
  - inversion E as [|? ? ? ? E1]; inversion E1.
  - assert (T : o <> t).
    { intros ->. destruct st as [|o2 st].
      - destruct (ch_bottom _ _ _ C) as [[|? [|? s]] B]; cbn in B; try discriminate.
        + inversion B; subst. destruct Hq as [<-|[<-|[]]]; now apply N.
        + destruct s; discriminate.
      - assert (0 < turn o2 t t) by (apply (ch_left _ _ _ C); constructor). unfold turn in *. nia. }
    inversion E as [|? ? ? ? E1]; subst.
    + apply below_neq; auto. apply (ch_step _ _ _ C). constructor.
    + apply IH; auto; [eapply chain_tail; eauto|].
      destruct st as [|o2 st]; [inversion E1 as [|? ? ? ? E2]; inversion E2|].
      assert (H : o <> c).
      { intros ->. assert (B : below o2 c) by (apply (ch_step _ _ _ C); repeat constructor).
        assert (o2 = c).
        { apply below_anti; auto. apply (ch_low _ _ _ C), (ch_incl _ _ _ C). right. right. now left. }
        subst. assert (0 < turn c c t) by (apply (ch_left _ _ _ C); constructor). unfold turn in *. nia. }
      exists o. split; [now left | auto].
Qed.

Lemma strict_head st : (forall u v, edge st u v -> sbelow u v) ->
  match st with [] => True | t :: st' => forall q, In q st' -> sbelow q t end.
Proof.
  induction st as [|t [|o st] IH]; intros H; auto; [easy|].
  assert (S : sbelow o t) by (apply H; constructor).
  intros q [<-|Hq]; auto.
  assert (K : sbelow q o) by (apply IH; auto; intros; apply H; now constructor).
  unfold sbelow in *. lia.
Qed.
Lemma strict_nodup st : (forall u v, edge st u v -> sbelow u v) -> NoDup st.
Proof.
  induction st as [|t st IH]; intros H; constructor.
  - intros K. assert (S := strict_head _ H t K). unfold sbelow in S. lia.
  - apply IH. intros. apply H. now constructor.
Qed.

(** ** One chain against the points of the other *)
Lemma cross_cover a b u v q : sbelow a b -> below u v -> below a q -> below q b ->
  0 <= turn u v a -> 0 <= turn u v b -> 0 <= turn a b q -> 0 <= turn u v q.
Proof.
  intros AB UV AQ QB TA TB TQ.
  destruct (Z.eq_dec (px u) (px v)) as [E1|E1], (Z.eq_dec (py u) (py v)) as [E2|E2].
  1: { unfold turn. rewrite E1, E2. nia. }
  all: assert (S : sbelow u v) by (unfold below, sbelow in *; lia); clear E1 E2 UV.
  all: assert (S' := sbelow_below _ _ S); apply below_lex in AQ, QB, S'; apply sbelow_slex in AB, S.
  all: destruct (Z.le_gt_cases 0 ((px v - px u) * (py b - py a) - (py v - py u) * (px b - px a))) as [D|D];
    [ assert (K := cone _ _ _ _ _ _ S' AB AQ D) | assert (K := cone _ _ _ _ _ _ QB AB S') ];
    unfold turn in *; nia.
Qed.

(** The turn at the greatest point. *)
Lemma turn_at_max a b c y : sbelow a b -> sbelow c b -> sbelow y b ->
  turn a b c <= 0 -> 0 <= turn a b y -> (turn a b c < 0 \/ 0 < turn a b y) -> 0 < turn c b y.
Proof.
  intros AB CB YB TC TY H.
  assert (CB' := sbelow_below _ _ CB). assert (YB' := sbelow_below _ _ YB).
  apply below_lex in CB', YB'. apply sbelow_slex in AB, CB, YB.
  destruct H as [H|H].
  - assert (K := cone_strict2 _ _ _ _ _ _ YB AB CB'). unfold turn in *. nia.
  - assert (K := cone_strict _ _ _ _ _ _ YB' AB CB). unfold turn in *. nia.
Qed.
(** The turn at the least point. *)
Lemma turn_at_min a b d y : sbelow a b -> sbelow a d -> sbelow a y ->
  turn a b d <= 0 -> 0 <= turn a b y -> (turn a b d < 0 \/ 0 < turn a b y) -> 0 < turn y a d.
Proof.
  intros AB AD AY TD TY H.
  rewrite <- turn_neg. apply (turn_at_max (neg b)); rewrite ?sbelow_neg, ?turn_neg; auto;
    unfold turn in *; nia.
Qed.

Lemma last_edge_strict a b c q : sbelow a b -> sbelow c b -> below q b ->
  0 <= turn c b q -> turn a b q < 0 -> turn a b c <= 0 -> turn a b c < 0.
Proof.
  intros AB CB QB T1 T2 T3. destruct (Z.eq_dec (turn a b c) 0) as [E|]; [exfalso|lia].
  apply sbelow_below in AB. apply below_lex in QB, AB. apply sbelow_slex in CB.
  assert (K := cone _ _ _ _ _ _ QB CB AB). unfold turn in *. nia.
Qed.
Lemma first_edge_strict a b d q : sbelow a b -> sbelow a d -> below a q ->
  0 <= turn a d q -> turn a b q < 0 -> turn a b d <= 0 -> turn a b d < 0.
Proof.
  intros AB CB QB T1 T2 T3. destruct (Z.eq_dec (turn a b d) 0) as [E|]; [exfalso|lia].
  apply sbelow_below in AB. apply below_lex in QB, AB. apply sbelow_slex in CB.
  assert (K := cone _ _ _ _ _ _ AB CB QB). unfold turn in *. nia.
Qed.

(** ** From stacks to positions *)
Lemma edge_nth u v : forall l i, nth_error (rev l) i = Some u -> nth_error (rev l) (S i) = Some v -> edge l u v.
Proof.
  induction l as [|x l IH]; intros i U V; [destruct i; discriminate|].
  cbn [rev] in *. destruct (Nat.lt_trichotomy (S i) (length (rev l))) as [H|[H|H]].
  - rewrite nth_error_app1 in U, V by lia. constructor. eauto.
  - rewrite nth_error_app1 in U by lia. rewrite nth_error_app2, <- H, Nat.sub_diag in V by lia.
    cbn in V. inversion V; subst. destruct l as [|y l]; [cbn in H; lia|].
    cbn [rev] in *. rewrite app_length in H. cbn in H.
    rewrite nth_error_app2 in U by lia. replace (i - length (rev l))%nat with O in U by lia.
    inversion U; subst. constructor.
  - assert (K : nth_error (rev l ++ [x]) (S i) <> None) by congruence.
    apply nth_error_Some in K. rewrite app_length in K. cbn in K. lia.
Qed.

Lemma triple_nth u v w : forall l i, nth_error (rev l) i = Some u -> nth_error (rev l) (S i) = Some v ->
  nth_error (rev l) (S (S i)) = Some w -> triple l u v w.
Proof.
  induction l as [|x l IH]; intros i U V W; [destruct i; discriminate|].
  cbn [rev] in *. destruct (Nat.lt_trichotomy (S (S i)) (length (rev l))) as [H|[H|H]].
  - rewrite nth_error_app1 in U, V, W by lia. constructor. eauto.
  - rewrite nth_error_app1 in U, V by lia. rewrite nth_error_app2, <- H, Nat.sub_diag in W by lia.
    cbn in W. inversion W; subst. destruct l as [|y [|z l]]; [cbn in H; lia | cbn in H; lia|].
    cbn [rev] in *. rewrite !app_length in H. cbn in H.
    rewrite <- app_assoc in U, V. cbn [app] in U, V.
    rewrite nth_error_app2 in U, V by lia. replace (i - length (rev l))%nat with O in U by lia.
    replace (S i - length (rev l))%nat with 1%nat in V by lia.
    inversion U; inversion V; subst. constructor.
  - assert (K : nth_error (rev l ++ [x]) (S (S i)) <> None) by congruence.
    apply nth_error_Some in K. rewrite app_length in K. cbn in K. lia.
Qed.

(** The vertex at a cyclic position. *)
Lemma nth_wrap (h ext : list pt) i d :
  (length ext <= length h)%nat -> firstn (length ext) h = ext ->
  (i < length h + length ext)%nat -> h <> [] ->
  nth_error (h ++ ext) i = Some (nth (i mod length h) h d).
Proof.
  intros L F I N. assert (0 < length h)%nat by (destruct h; cbn; [easy|lia]).
  destruct (Nat.lt_ge_cases i (length h)) as [H1|H1].
  - rewrite nth_error_app1, Nat.mod_small by lia. now apply nth_error_nth'.
  - rewrite nth_error_app2 by lia.
    assert (E : (i mod length h = i - length h)%nat).
    { replace i with ((i - length h) + 1 * length h)%nat at 1 by lia.
      rewrite Nat.mod_add by lia. apply Nat.mod_small. lia. }
    assert (Hh : h = ext ++ skipn (length ext) h) by (rewrite <- F at 1; symmetry; apply firstn_skipn).
    rewrite E. replace (nth (i - length h) h d) with (nth (i - length h) (ext ++ skipn (length ext) h) d)
      by now rewrite <- Hh.
    rewrite app_nth1 by lia. apply nth_error_nth'. lia.
Qed.

(** ** The hull *)
Lemma noncollinear_split pts a b : (exists p q r, In p pts /\ In q pts /\ In r pts /\ turn p q r <> 0) ->
  (forall q, In q pts -> below a q /\ below q b) ->
  a <> b /\ exists q, In q pts /\ turn a b q <> 0.
Proof.
  intros (p & q & r & Hp & Hq & Hr & T) B.
  assert (N : a <> b).
  { intros ->. assert (E : forall x, In x pts -> x = b) by (intros x Hx; destruct (B x Hx); now apply below_anti).
    apply E in Hp, Hq, Hr. subst. apply T. unfold turn. ring. }
  split; auto.
  destruct (Z.eq_dec (turn a b p) 0) as [E1|]; [|eauto].
  destruct (Z.eq_dec (turn a b q) 0) as [E2|]; [|eauto].
  destruct (Z.eq_dec (turn a b r) 0) as [E3|]; [|eauto].
  exfalso. apply T. unfold turn in *.
  set (ux := px q - px p). set (uy := py q - py p). set (wx := px r - px p). set (wy := py r - py p).
  set (dx := px b - px a) in *. set (dy := py b - py a) in *.
  assert (U : dx * uy = dy * ux) by (unfold ux, uy; nia).
  assert (W : dx * wy = dy * wx) by (unfold wx, wy; nia).
  assert (Zx : (ux * wy - uy * wx) * dx = 0).
  { replace ((ux * wy - uy * wx) * dx) with (ux * (dx * wy) - wx * (dx * uy)) by ring. rewrite U, W. ring. }
  assert (Zy : (ux * wy - uy * wx) * dy = 0).
  { replace ((ux * wy - uy * wx) * dy) with (wy * (dy * ux) - uy * (dy * wx)) by ring. rewrite <- U, <- W. ring. }
  apply Z.mul_eq_0 in Zx. apply Z.mul_eq_0 in Zy. destruct Zx as [|Zx], Zy as [|Zy]; auto.
  exfalso. apply N. unfold dx, dy in *. apply pt_eq; lia.
Qed.

Section Hull.
  Context (pts : list pt) (a b : pt) (lower upper : list pt).
  Hypothesis Ba : In a pts.
  Hypothesis Bb : In b pts.
  Hypothesis Bnd : forall q, In q pts -> below a q /\ below q b.
  Hypothesis Nab : sbelow a b.
  Hypothesis Low : forall q, In q lower <-> In q pts /\ turn a b q <= 0.
  Hypothesis Upp : forall q, In q upper <-> In q pts /\ 0 < turn a b q.
  Hypothesis Slow : StronglySorted below lower.
  Hypothesis Supp : StronglySorted (fun x y => below y x) upper.

  Lemma lower_form : exists p1 rest, lower = a :: p1 :: rest.
  Proof.
    assert (Ia : In a lower) by (apply Low; split; auto; unfold turn; lia).
    assert (Ib : In b lower) by (apply Low; split; auto; unfold turn; lia).
    destruct lower as [|p0 l]; [easy|].
    assert (E : p0 = a).
    { destruct Ia as [|Ia]; auto. apply below_anti.
      - inversion Slow as [|? ? S1 S2]; subst. rewrite Forall_forall in S2. now apply S2.
      - apply Bnd. apply Low. now left. }
    subst. destruct l as [|p1 rest]; [|eauto].
    destruct Ib as [<-|[]]. unfold sbelow in Nab. lia.
  Qed.

  (** The lower chain. *)
  Lemma lower_chain p1 rest : lower = a :: p1 :: rest ->
    exists c tl, fold_left push rest [p1; a] = b :: c :: tl
      /\ chain a (b :: c :: tl) (rev rest ++ [p1; a])
      /\ forall q, In q (rev rest ++ [p1; a]) <-> In q lower.
  Proof.
    intros E. assert (S0 := Slow). rewrite E in S0. apply StronglySorted_inv in S0. destruct S0 as [S1 S2].
    apply Forall_cons_iff in S2. destruct S2 as [S2 _].
    assert (M : forall q, In q (rev rest ++ [p1; a]) <-> In q lower).
    { intros q. rewrite E, in_app_iff, <- in_rev. cbn. tauto. }
    assert (C0 : chain a [p1; a] [p1; a]).
    { constructor.
      - now exists [p1].
      - apply incl_refl.
      - intros q [<-|[<-|[]]]; auto using below_refl.
      - intros u v Ed. inversion Ed as [|? ? ? ? E1]; subst; auto. inversion E1 as [|? ? ? ? E2]; inversion E2.
      - intros u v w Ed. inversion Ed as [|? ? ? ? ? E1]; subst. inversion E1 as [|? ? ? ? ? E2]; subst. inversion E2.
      - intros u v q Ed Hq. inversion Ed as [|? ? ? ? E1]; subst.
        + destruct Hq as [<-|[<-|[]]]; unfold turn; nia.
        + inversion E1 as [|? ? ? ? E2]; inversion E2. }
    destruct (chain_push_all a rest [p1; a] [p1; a] C0) as (C & T & D).
    - intros q [<-|[<-|[]]]; auto using below_refl.
    - exact S1.
    - destruct (fold_left push rest [p1; a]) as [|t [|c tl]] eqn:F; [easy| |].
      + destruct D as [->|D]; [discriminate | cbn in D; lia].
      + assert (t = b).
        { apply below_anti.
          - apply Bnd. apply Low, M, (ch_incl _ _ _ C). now left.
          - apply T, M, Low. split; auto. unfold turn. lia. }
        subst t. exists c, tl. split; [reflexivity|]. split; [exact C | exact M].
  Qed.

  (** The upper chain, seen through the mirror; the last [pop] only removes points. *)
  Lemma upper_chain : exists s0 s,
    fold_left push upper [b] = s0 ++ [b] /\ pop a (s0 ++ [b]) = s ++ [b] /\ incl s upper
    /\ (s = [] -> upper = [])
    /\ chain (neg b) (map neg (a :: s ++ [b])) (neg a :: rev (map neg upper) ++ [neg b]).
  Proof.
    assert (C0 : chain (neg b) (map neg [b]) [neg b]).
    { constructor.
      - now exists [].
      - apply incl_refl.
      - intros q [<-|[]]. apply below_refl.
      - intros u v Ed. inversion Ed as [|? ? ? ? E1]; inversion E1.
      - intros u v w Ed. inversion Ed as [|? ? ? ? ? E1]; subst. inversion E1.
      - intros u v q Ed. inversion Ed as [|? ? ? ? E1]; inversion E1. }
    destruct (chain_push_all (neg b) (map neg upper) (map neg [b]) [neg b] C0) as (C & T & D).
    { intros q [<-|[]]. cbn. apply below_refl. }
    { cbn [map]. constructor.
      - clear - Supp. induction Supp as [|x l S IH F]; cbn; constructor; auto.
        rewrite Forall_map. eapply Forall_impl; [|exact F]. intros y Hy. now apply below_neg.
      - rewrite Forall_map, Forall_forall. intros q Hq. apply below_neg, Bnd. now apply Upp. }
    rewrite push_neg in C, T, D.
    destruct (push_app b [] upper [] (fun _ _ => I)) as (s0 & _ & F & I0). cbn [app] in F.
    rewrite app_nil_r in I0.
    destruct (pop_form a b s0) as (s & G & I1).
    exists s0, s. split; [exact F|]. split; [exact G|]. split; [eapply incl_tran; eauto|].
    split.
    - intros ->. destruct D as [D|D]; [now apply map_eq_nil in D|]. exfalso.
      rewrite map_length, F, app_length in D. cbn in D.
      destruct (exists_last (l := s0)) as (s1 & u1 & E1); [intros ->; cbn in D; lia|].
      subst s0. rewrite <- app_assoc in G. cbn [app] in G.
      rewrite (pop_app a u1 [b]) in G.
      + destruct (pop_form a u1 s1) as (s2 & G2 & _). rewrite G2 in G.
        apply (f_equal (@length _)) in G. rewrite !app_length in G. cbn in G. lia.
      + cbn. assert (In u1 upper) as Hu by (apply I0, in_or_app; right; now left).
        apply Upp in Hu. unfold turn in *. nia.
    - rewrite F in C, T.
      destruct (map neg (s0 ++ [b])) as [|t st] eqn:E0; [easy|].
      destruct (chain_pop (neg b) (neg a) (rev (map neg upper) ++ [neg b])) with (st := st) (t := t)
        as (t' & st' & E & C' & Cap & K); auto.
      + intros q Hq. apply in_app_or in Hq. destruct Hq as [Hq|[<-|[]]].
        * rewrite <- in_rev in Hq. apply in_map_iff in Hq. destruct Hq as (x & <- & Hx).
          apply below_neg, Bnd. now apply Upp.
        * apply below_neg, sbelow_below; auto.
      + now left.
      + rewrite <- E0, pop_neg, G in E. cbn [map]. rewrite E.
        apply chain_add; auto. intros q Hq. apply in_app_or in Hq. destruct Hq as [Hq|[<-|[]]].
        * rewrite <- in_rev in Hq. apply in_map_iff in Hq. destruct Hq as (x & <- & Hx).
          apply below_neg, Bnd. now apply Upp.
        * apply below_neg, sbelow_below; auto.
  Qed.

  Hypothesis Off : exists q, In q pts /\ turn a b q <> 0.

  Lemma hull_stack p1 rest : lower = a :: p1 :: rest ->
    exists st d st', pop a (fold_left push (rest ++ upper) [p1; a]) = st
      /\ rev st = a :: d :: st' /\ (3 <= length st)%nat
      /\ incl st pts /\ NoDup st
      /\ (forall u v q, edge (a :: st) u v -> In q pts -> 0 <= turn u v q)
      /\ (forall u v w, triple (d :: a :: st) u v w -> 0 < turn u v w).
  Proof.
    intros E. destruct (lower_chain p1 rest E) as (c & tl & FL & CL & ML).
    destruct upper_chain as (s0 & s & FU & GU & IU & NU & CU).
    assert (LowIn : forall q, In q (b :: c :: tl) -> In q pts /\ turn a b q <= 0).
    { intros q Hq. apply Low, ML, (ch_incl _ _ _ CL), Hq. }
    assert (StL : forall u v, edge (b :: c :: tl) u v -> sbelow u v).
    { apply (chain_strict _ _ _ CL). exists b. split; [now left|].
      intros ->. unfold sbelow in Nab. lia. }
    assert (StU : forall u v, edge (a :: s ++ [b]) u v -> sbelow v u).
    { intros u v Ed. apply edge_neg in Ed. apply sbelow_neg.
      eapply (chain_strict _ _ _ CU); [|exact Ed].
      exists (neg a). split; [now left|]. intros K. apply (f_equal neg) in K. rewrite !neg_neg in K.
      subst. unfold sbelow in Nab. lia. }
    assert (Cb : sbelow c b) by (apply StL; constructor).
    assert (Hc : In c pts /\ turn a b c <= 0) by (apply LowIn; right; now left).
    (* the stack *)
    assert (KU : forall p, In p upper -> kept b (c :: tl) p).
    { intros p Hp. apply Upp in Hp. cbn. apply (turn_at_max a); try tauto; try lia.
      apply below_neq; [now apply Bnd|]. intros ->. unfold turn in Hp. lia. }
    destruct (push_app b (c :: tl) upper [] KU) as (s0' & A1 & A2 & _). cbn [app] in A1, A2.
    assert (s0' = s0) by (rewrite FU in A2; now apply app_inj_tail in A2). subst s0'. clear A2.
    (* strictness at the greatest point *)
    assert (Ty : forall y, (In y upper \/ (upper = [] /\ y = a)) -> 0 < turn c b y).
    { intros y [Hy|[Un ->]]; [now apply KU|].
      apply (turn_at_max a); try tauto; [unfold turn; nia|].
      left. destruct Off as (q & Hq & Tq).
      assert (turn a b q < 0).
      { destruct (Z.lt_ge_cases 0 (turn a b q)) as [K|]; [|lia].
        assert (In q upper) by (apply Upp; auto). rewrite Un in *. easy. }
      apply (last_edge_strict a b c q); try tauto; [now apply Bnd|].
      apply (ch_cover _ _ _ CL); [constructor|]. apply ML, Low. split; auto. lia. }
    assert (P1 : pop a (s0 ++ b :: c :: tl) = s ++ b :: c :: tl).
    { destruct upper as [|u0 up0] eqn:EU.
      - cbn in FU. destruct s0 as [|? [|]]; try discriminate. cbn in GU.
        destruct s as [|? [|]]; try discriminate. cbn [app]. rewrite pop_cons2.
        assert (K : 0 < turn c b a) by (apply Ty; auto). apply Z.ltb_lt in K. now rewrite K.
      - destruct (exists_last (l := s0)) as (s1 & u1 & E1).
        { intros ->. cbn in GU. destruct s as [|? [|]]; try discriminate. now specialize (NU eq_refl). }
        subst s0. assert (Ku : 0 < turn b u1 a).
        { assert (In u1 (u0 :: up0)) as Hu.
          { destruct (push_app b [] (u0 :: up0) [] (fun _ _ => I)) as (s' & _ & F' & I').
            cbn [app] in F'. cbn [app] in FU. rewrite FU in F'. apply app_inj_tail in F'. destruct F' as [<- _].
            rewrite app_nil_r in I'. apply I', in_or_app. right. now left. }
          apply Upp in Hu. unfold turn in *. nia. }
        rewrite <- !app_assoc in *. cbn [app] in *.
        rewrite (pop_app a u1 (b :: c :: tl)) by exact Ku.
        rewrite (pop_app a u1 [b]) in GU by exact Ku.
        destruct (pop_form a u1 s1) as (s2 & G2 & _). rewrite G2 in *.
        apply app_inj_tail in GU. destruct GU as [<- _]. reflexivity. }
    destruct (ch_bottom _ _ _ CL) as [bs EB].
    (* the bottom of the stack *)
    assert (HB : exists d tl', rev (b :: c :: tl) = a :: d :: tl' /\ edge (b :: c :: tl) a d).
    { destruct (exists_last (l := bs)) as (bs' & d & ->).
      { intros ->. destruct tl; discriminate. }
      rewrite EB. exists d, (rev bs'). rewrite !rev_app_distr. split; [reflexivity|].
      rewrite <- app_assoc. cbn. clear. induction bs'; cbn; constructor; auto. }
    destruct HB as (d & tl' & HB & Ed).
    assert (Hd : In d pts /\ turn a b d <= 0).
    { apply LowIn. rewrite in_rev, HB. right. now left. }
    assert (Sd : sbelow a d) by now apply StL.
    assert (Td : forall y, (In y upper \/ (upper = [] /\ y = b)) -> 0 < turn y a d).
    { intros y Hy. apply (turn_at_min a b); try tauto.
      - destruct Hy as [Hy|[_ ->]]; auto. apply Upp in Hy. apply below_neq; [now apply Bnd|].
        intros <-. unfold turn in Hy. lia.
      - destruct Hy as [Hy|[_ ->]]; [apply Upp in Hy; lia|]. unfold turn. lia.
      - destruct Hy as [Hy|[Un ->]]; [right; now apply Upp|]. left.
        destruct Off as (q & Hq & Tq).
        assert (turn a b q < 0).
        { destruct (Z.lt_ge_cases 0 (turn a b q)) as [K|]; [|lia].
          assert (In q upper) by (apply Upp; auto). rewrite Un in *. easy. }
        apply (first_edge_strict a b d q); try tauto; [now apply Bnd|].
        apply (ch_cover _ _ _ CL); [auto|]. apply ML, Low. split; auto. lia. }
    exists (s ++ b :: c :: tl), d, (tl' ++ rev s).
    split; [now rewrite fold_left_app, FL, A1|].
    split; [rewrite rev_app_distr, HB; reflexivity|].
    split.
    { rewrite app_length. cbn [length]. destruct s as [|x s]; [|cbn; lia].
      destruct tl; [|cbn; lia]. exfalso.
      assert (Ec : c = a) by (cbn in HB; congruence).
      assert (K : 0 < turn c b a) by (apply Ty; auto). rewrite Ec in K. unfold turn in K. lia. }
    split.
    { intros q Hq. apply in_app_or in Hq. destruct Hq as [Hq|Hq]; [apply Upp; auto | now apply LowIn]. }
    split.
    { assert (N1 : NoDup (map neg (s ++ [b]))).
      { assert (K : NoDup (map neg (a :: s ++ [b]))); [|now inversion K].
        apply strict_nodup. intros u v Ed'. eapply (chain_strict _ _ _ CU); [|exact Ed'].
        exists (neg a). split; [now left|]. intros K. apply (f_equal neg) in K. rewrite !neg_neg in K.
        subst. unfold sbelow in Nab. lia. }
      apply NoDup_map_inv in N1.
      assert (N2 : NoDup (b :: c :: tl)) by now apply strict_nodup.
      assert (Dj : forall q, In q s -> ~ In q (b :: c :: tl)).
      { intros q H1 H2. apply IU, Upp in H1. apply LowIn in H2. lia. }
      assert (N3 : NoDup s) by (apply NoDup_remove_1 in N1; now rewrite app_nil_r in N1).
      clear - N2 N3 Dj. induction s as [|x s IH]; cbn; auto. inversion N3; subst.
      constructor.
      - intros K. apply in_app_or in K. destruct K; auto. apply (Dj x); auto. now left.
      - apply IH; auto. intros q Hq. apply Dj. now right. }
    split.
    { intros u v q Ed' Hq.
      assert (LowQ : forall q, In q lower -> In q (rev rest ++ [p1; a])) by (intros; now apply ML).
      assert (La : In a (rev rest ++ [p1; a])) by (apply LowQ, Low; split; auto; unfold turn; lia).
      assert (Lb : In b (rev rest ++ [p1; a])) by (apply LowQ, Low; split; auto; unfold turn; lia).
      change (a :: s ++ b :: c :: tl) with ((a :: s) ++ b :: c :: tl) in Ed'.
      apply edge_app in Ed'. destruct Ed' as [Ed'|Ed'].
      - assert (Ng := edge_neg _ _ _ Ed').
        assert (Cv : forall x, In x upper \/ x = a \/ x = b -> 0 <= turn u v x).
        { intros x Hx. rewrite <- turn_neg. apply (ch_cover _ _ _ CU _ _ _ Ng).
          destruct Hx as [Hx|[->| ->]].
          - right. apply in_or_app. left. rewrite <- in_rev. now apply in_map.
          - now left.
          - right. apply in_or_app. right. now left. }
        destruct (Z.lt_ge_cases 0 (turn a b q)) as [K|K].
        + apply Cv. left. now apply Upp.
        + rewrite <- turn_neg. apply (cross_cover (neg b) (neg a)); rewrite ?sbelow_neg, ?below_neg, ?turn_neg; auto.
          * now apply sbelow_below, StU.
          * now apply Bnd.
          * now apply Bnd.
          * unfold turn in *. nia.
      - destruct (Z.lt_ge_cases 0 (turn a b q)) as [K|K].
        + apply (cross_cover a b); auto.
          * now apply sbelow_below, StL.
          * now apply Bnd.
          * now apply Bnd.
          * now apply (ch_cover _ _ _ CL).
          * now apply (ch_cover _ _ _ CL).
          * lia.
        + apply (ch_cover _ _ _ CL); auto. apply LowQ, Low. auto. }
    { intros u v w T.
      change (d :: a :: s ++ b :: c :: tl) with ((d :: a :: s) ++ b :: c :: tl) in T.
      apply triple_app in T. destruct T as [T|[T|(l & y & l' & E1 & E2 & -> & ->)]].
      - cbn [app] in T. inversion T as [|? ? ? ? ? T1]; subst.
        + apply Td. destruct s as [|x s].
          * right. cbn in *. split; [now apply NU | congruence].
          * left. apply IU. cbn in *. left. congruence.
        + rewrite <- turn_neg. apply (ch_left _ _ _ CU). now apply (triple_neg (a :: s ++ [b])).
      - now apply (ch_left _ _ _ CL).
      - inversion E2; subst. apply Ty.
        destruct s as [|x s].
        + right. split; [now apply NU|]. change [d; a] with ([d] ++ [a]) in E1.
          apply app_inj_tail in E1. now destruct E1.
        + left. apply IU. destruct (exists_last (l := x :: s)) as (s2 & z & E3); [easy|].
          rewrite E3 in *. change (d :: a :: s2 ++ [z]) with ((d :: a :: s2) ++ [z]) in E1.
          apply app_inj_tail in E1. destruct E1 as [_ <-]. apply in_or_app. right. now left. }
  Qed.
End Hull.

Theorem hull_main pts : (exists p q r, In p pts /\ In q pts /\ In r pts /\ turn p q r <> 0) ->
  exists h, convex_hull pts = Ok h
    /\ (3 <= length h)%nat /\ incl h pts /\ NoDup h
    /\ (forall q, In q pts -> below (hd (P 0 0) h) q)
    /\ (forall i q, (i < length h)%nat -> In q pts ->
          0 <= turn (nth i h (P 0 0)) (nth ((i + 1) mod length h) h (P 0 0)) q)
    /\ (forall i, (i < length h)%nat ->
          0 < turn (nth i h (P 0 0)) (nth ((i + 1) mod length h) h (P 0 0)) (nth ((i + 2) mod length h) h (P 0 0))).
Proof.
  intros NC. destruct pts as [|p [|p' ps]].
  - destruct NC as (p & _ & _ & [] & _).
  - exfalso. destruct NC as (x & y & z & [<-|[]] & [<-|[]] & [<-|[]] & T). apply T. unfold turn. ring.
  - set (ps0 := p' :: ps) in *. set (pts := p :: ps0) in *.
    destruct (min_point_spec ps0 p) as [Ia Ma]. destruct (max_point_spec ps0 p) as [Ib Mb].
    set (a := min_point p ps0) in *. set (b := max_point p ps0) in *.
    assert (Bnd : forall q, In q pts -> below a q /\ below q b) by (intros; split; auto).
    destruct (noncollinear_split pts a b NC Bnd) as [Nab Off].
    set (comp := fun q => negb (orient_pl q (make_line a b) =? o_right)).
    set (lower := sort pless (filter comp pts)).
    set (upper := sort pgreater (filter (fun q => negb (comp q)) pts)).
    assert (Low : forall q, In q lower <-> In q pts /\ turn a b q <= 0).
    { intros q. unfold lower. rewrite (sort_perm pless (filter comp pts)), filter_In.
      unfold comp. rewrite comp_spec, Z.leb_le. tauto. }
    assert (Upp : forall q, In q upper <-> In q pts /\ 0 < turn a b q).
    { intros q. unfold upper. rewrite (sort_perm pgreater (filter _ pts)), filter_In.
      unfold comp. rewrite comp_spec, negb_true_iff, Z.leb_gt. tauto. }
    assert (Slow : StronglySorted below lower).
    { apply sort_sorted.
      - intros. now apply sbelow_below, pless_true.
      - apply pless_false.
      - apply below_trans. }
    assert (Supp : StronglySorted (fun x y => below y x) upper).
    { apply sort_sorted.
      - intros. now apply sbelow_below, pless_true.
      - intros x y H. now apply pless_false in H.
      - intros x y z H1 H2. eapply below_trans; eauto. }
    assert (Sab : sbelow a b) by (apply below_neq; auto; now apply Bnd).
    destruct (lower_form pts a b lower upper Ia Ib Bnd Sab Low Upp Slow) as (p1 & rest & EL).
    destruct (hull_stack pts a b lower upper Ia Ib Bnd Sab Low Upp Slow Supp Off p1 rest EL)
      as (st & d & st' & ES & ER & L3 & Inc & ND & Cov & Tri).
    exists (rev st).
    split.
    { change (convex_hull pts) with
        (match lower with
         | p0 :: p1 :: rest =>
             let st := pop p0 (fold_left push (rest ++ upper) [p1; p0]) in
             Ok (rev (match st with [a; b] => if peq b a then [b] else st | _ => st end))
         | _ => AssertFail
         end).
      rewrite EL. cbv zeta. rewrite ES. f_equal. f_equal. destruct st as [|? [|? [|]]]; cbn in L3; try lia. reflexivity. }
    rewrite rev_length. split; [exact L3|].
    split; [intros q Hq; apply Inc; now rewrite in_rev|].
    split; [now apply NoDup_rev|].
    split; [intros q Hq; rewrite ER; cbn; now apply Bnd|].
    assert (Ne : rev st <> []) by (rewrite ER; discriminate).
    split.
    + intros i q Hi Hq. apply Cov; auto. apply (edge_nth _ _ _ i); cbn [rev].
      * rewrite (nth_wrap (rev st) [a] i (P 0 0)); auto; rewrite ?rev_length; cbn [length]; try lia.
        -- now rewrite Nat.mod_small.
        -- now rewrite ER.
      * rewrite (nth_wrap (rev st) [a] (S i) (P 0 0)); auto; rewrite ?rev_length; cbn [length]; try lia.
        -- now rewrite Nat.add_1_r.
        -- now rewrite ER.
    + intros i Hi. apply Tri. apply (triple_nth _ _ _ _ i); cbn [rev]; rewrite <- app_assoc; cbn [app].
      * rewrite (nth_wrap (rev st) [a; d] i (P 0 0)); auto; rewrite ?rev_length; cbn [length]; try lia.
        -- now rewrite Nat.mod_small.
        -- now rewrite ER.
      * rewrite (nth_wrap (rev st) [a; d] (S i) (P 0 0)); auto; rewrite ?rev_length; cbn [length]; try lia.
        -- now rewrite Nat.add_1_r.
        -- now rewrite ER.
      * rewrite (nth_wrap (rev st) [a; d] (S (S i)) (P 0 0)); auto; rewrite ?rev_length; cbn [length]; try lia.
        -- repeat f_equal. lia.
        -- now rewrite ER.
Qed.

(** All points on one line: everything but the least point is removed. *)
Lemma pop_collinear p b : forall s, (forall x y, In x (s ++ [b]) -> In y (s ++ [b]) -> turn x y p = 0) ->
  pop p (s ++ [b]) = [b].
Proof.
  induction s as [|x s IH]; intros H; [reflexivity|].
  destruct s as [|y s]; cbn [app] in *.
  - rewrite pop_cons2, H by (cbn; auto). reflexivity.
  - rewrite pop_cons2, H by (cbn; auto). apply IH. intros. apply H; cbn in *; tauto.
Qed.
Theorem hull_collinear pts : (2 <= length pts)%nat ->
  (forall p q r, In p pts -> In q pts -> In r pts -> turn p q r = 0) ->
  exists m, convex_hull pts = Ok [m] /\ In m pts /\ forall q, In q pts -> below m q.
Proof.
  intros L2 Col. destruct pts as [|p [|p' ps]]; try (cbn in L2; lia).
  set (ps0 := p' :: ps) in *. set (pts := p :: ps0) in *.
  destruct (min_point_spec ps0 p) as [Ia Ma]. destruct (max_point_spec ps0 p) as [Ib Mb].
  set (a := min_point p ps0) in *. set (b := max_point p ps0) in *.
  set (comp := fun q => negb (orient_pl q (make_line a b) =? o_right)).
  set (lower := sort pless (filter comp pts)).
  set (upper := sort pgreater (filter (fun q => negb (comp q)) pts)).
  assert (Cp : forall q, In q pts -> comp q = true).
  { intros q Hq. unfold comp. rewrite comp_spec, Col by auto. reflexivity. }
  assert (EU : upper = []).
  { unfold upper. replace (filter (fun q => negb (comp q)) pts) with (@nil pt); [reflexivity|].
    symmetry. clear - Cp. induction pts as [|x l IH]; [reflexivity|]. cbn [filter].
    rewrite Cp by now left. cbn. apply IH. intros. apply Cp. now right. }
  assert (Pm : Permutation lower pts).
  { unfold lower. replace (filter comp pts) with pts; [apply sort_perm|].
    symmetry. clear - Cp. induction pts as [|x l IH]; [reflexivity|]. cbn [filter].
    rewrite Cp by now left. f_equal. apply IH. intros. apply Cp. now right. }
  assert (Slow : StronglySorted below lower).
  { apply sort_sorted.
    - intros. now apply sbelow_below, pless_true.
    - apply pless_false.
    - apply below_trans. }
  assert (Ln := Permutation_length Pm).
  change (convex_hull pts) with
    (match lower with
     | p0 :: p1 :: rest =>
         let st := pop p0 (fold_left push (rest ++ upper) [p1; p0]) in
         Ok (rev (match st with [a; b] => if peq b a then [b] else st | _ => st end))
     | _ => AssertFail
     end).
  destruct lower as [|p0 [|p1 rest]]; [discriminate | discriminate |].
  rewrite EU, app_nil_r. cbv zeta.
  assert (In0 : In p0 pts) by (rewrite <- Pm; now left).
  destruct (push_app p0 [] rest [p1]) as (s' & A & _ & I'); [intros; exact I|]. cbn [app] in A.
  rewrite A, pop_collinear.
  - exists p0. split; [reflexivity|]. split; auto.
    intros q Hq. rewrite <- Pm in Hq. destruct Hq as [<-|Hq]; [apply below_refl|].
    apply StronglySorted_inv in Slow. destruct Slow as [_ F]. rewrite Forall_forall in F. now apply F.
  - assert (Sub : forall x, In x (s' ++ [p0]) -> In x pts).
    { intros x Hx. rewrite <- Pm. apply in_app_or in Hx. destruct Hx as [Hx|[<-|[]]]; [|now left].
      apply I', in_app_or in Hx. destruct Hx as [Hx|[<-|[]]]; right; [now right | now left]. }
    intros x y Hx Hy. apply Col; auto.
Qed.
