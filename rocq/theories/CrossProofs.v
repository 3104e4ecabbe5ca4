(** Proofs about intersections (CrossModel.v). *)
From Coq Require Import QArith Qcanon List Bool Lia Lqa Field.
From Verif Require Import Outcome VecModel VecProofs CrossModel.
Import ListNotations.
Local Open Scope Qc_scope.

(** ** Linear arithmetic for canonical rationals *)
Lemma this_add x y : (this (x + y) == this x + this y)%Q. Proof. apply Qred_correct. Qed.
Lemma this_mul x y : (this (x * y) == this x * this y)%Q. Proof. apply Qred_correct. Qed.
Lemma this_opp x : (this (- x) == - this x)%Q. Proof. apply Qred_correct. Qed.
Lemma this_sub x y : (this (x - y) == this x - this y)%Q.
Proof. unfold Qcminus. rewrite this_add, this_opp. reflexivity. Qed.
Lemma this_eq x y : x = y -> (this x == this y)%Q. Proof. intros ->. reflexivity. Qed.
Lemma this_neq x y : x <> y -> ~ (this x == this y)%Q. Proof. intros H E. now apply H, Qc_is_canon. Qed.
Ltac toQ :=
  repeat match goal with
  | H : @eq Qc _ _ |- _ => apply this_eq in H
  | H : ~ @eq Qc _ _ |- _ => apply this_neq in H
  | H : Qclt _ _ |- _ => unfold Qclt in H
  | H : Qcle _ _ |- _ => unfold Qcle in H
  end;
  match goal with
  | |- @eq Qc _ _ => apply Qc_is_canon
  | |- Qclt _ _ => unfold Qclt
  | |- Qcle _ _ => unfold Qcle
  | _ => exfalso
  end;
  change (this 0) with 0%Q in *; change (this 1) with 1%Q in *;
  repeat (rewrite ?this_sub, ?this_add, ?this_mul, ?this_opp in * );
  change (this 0) with 0%Q in *; change (this 1) with 1%Q in *.
Ltac qlra := toQ; lra.
Ltac qnra := toQ; nra.


(** ** Points of a line, ray or segment *)
Definition begin_ok (k : endpoint) (t : Qc) : Prop :=
  match k with Free => True | Closed => 0 <= t | Open => 0 < t end.
Definition end_ok (k : endpoint) (t : Qc) : Prop :=
  match k with Free => True | Closed => t <= 1 | Open => t < 1 end.
Definition inside (l : line) (t : Qc) : Prop := begin_ok (kbegin l) t /\ end_ok (kend l) t.
Definition contains (l : line) (q : vec) : Prop := exists t, q = at_ l t /\ inside l t.

Lemma div_pos (n d : Qc) : 0 < d -> (0 <= n <-> 0 <= n / d) /\ (0 < n <-> 0 < n / d)
  /\ (n <= d <-> n / d <= 1) /\ (n < d <-> n / d < 1).
Proof.
  intros D. assert (N : d <> 0) by (intros ->; now apply (Qclt_not_eq _ _ D)).
  assert (E : n = n / d * d) by (field; exact N). set (x := n / d) in *. clearbody x. subst n.
  repeat split; intros H; qnra.
Qed.
Lemma line_test_spec l num den : 0 < den -> line_test l num den = true <-> inside l (num / den).
Proof.
  intros D. unfold line_test, inside, endpoint_test. rewrite andb_true_iff.
  destruct (div_pos num den D) as (A & B & C & E).
  destruct (kbegin l), (kend l); cbn [begin_ok end_ok];
    rewrite ?negb_true_iff, ?qlt_false, ?qlt_spec, ?A, ?B, ?C, ?E; tauto.
Qed.
Lemma cross_test_spec l r ta la ra : ta <> 0 ->
  cross_test l r ta la ra = true <-> inside l (la / ta) /\ inside r (ra / ta).
Proof.
  intros N. unfold cross_test. destruct (qlt ta 0) eqn:E.
  - apply qlt_spec in E. rewrite andb_true_iff, !line_test_spec by qlra.
    replace (- la / - ta) with (la / ta) by (field; split; auto; intros H; apply N; qlra).
    replace (- ra / - ta) with (ra / ta) by (field; split; auto; intros H; apply N; qlra). tauto.
  - apply qlt_false in E. assert (0 < ta).
    { destruct (Qcle_lt_or_eq _ _ E); auto. congruence. }
    rewrite andb_true_iff, !line_test_spec by auto. tauto.
Qed.

(** ** Crossing lines of the plane *)
Definition det (l r : line) : Qc := area2 (lvec r) (lvec l).
Definition lpar (l r : line) : Qc := area2 (vsub (lbegin l) (lbegin r)) (lvec r) / det l r.
Definition rpar (l r : line) : Qc := area2 (vsub (lbegin l) (lbegin r)) (lvec l) / det l r.
Ltac planar l :=
  let b := fresh "b" in let v := fresh "v" in let kb := fresh "kb" in let ke := fresh "ke" in
  destruct l as [b v kb ke]; cbn [lbegin lvec kbegin kend] in *;
  destruct b as [|? [|? [|]]]; try discriminate; destruct v as [|? [|? [|]]]; try discriminate.
Lemma cons2_eq (a b c d : Qc) : [a; b] = [c; d] <-> a = c /\ b = d.
Proof. split; [intros H|intros [-> ->]; reflexivity]. split.
  - exact (f_equal (fun v => nth 0 v 0) H).
  - exact (f_equal (fun v => nth 1 v 0) H).
Qed.
Definition flat (l : line) : Prop := length (lbegin l) = 2%nat /\ length (lvec l) = 2%nat.
Lemma meet l r t s : flat l -> flat r -> det l r <> 0 ->
  at_ l t = at_ r s <-> t = lpar l r /\ s = rpar l r.
Proof.
  intros [Hl1 Hl2] [Hr1 Hr2]. unfold lpar, rpar, det. planar l. planar r.
  cbn [at_ lbegin lvec vadd vscale vsub zip map area2]. intros N.
  rename q into bx, q0 into by_, q1 into vx, q2 into vy, q3 into cx, q4 into cy, q5 into wx, q6 into wy.
  unfold at_. cbn [lbegin lvec vadd vscale zip map]. rewrite cons2_eq. split.
  - intros [A B]. set (T := wx * vy - wy * vx) in *.
    assert (E1 : t * T = (bx - cx) * wy - (by_ - cy) * wx).
    { unfold T. replace (t * (wx * vy - wy * vx)) with (wx * (by_ + t * vy) - wy * (bx + t * vx) - wx * by_ + wy * bx) by ring.
      rewrite A, B. ring. }
    assert (E2 : s * T = (bx - cx) * vy - (by_ - cy) * vx).
    { unfold T. replace (s * (wx * vy - wy * vx)) with (vy * (cx + s * wx) - vx * (cy + s * wy) - vy * cx + vx * cy) by ring.
      rewrite <- A, <- B. ring. }
    rewrite <- E1, <- E2. split; field; exact N.
  - intros [-> ->]. split; field; exact N.
Qed.
Lemma intersect_scalar_spec l r t : flat l -> flat r ->
  In t (intersect_scalar l r) <-> det l r <> 0 /\ inside l t /\ exists s, inside r s /\ at_ l t = at_ r s.
Proof.
  intros Fl Fr. unfold intersect_scalar. fold (det l r). destruct (is0 (det l r)) eqn:Z.
  - apply is0_spec in Z. split; [intros [] | intros [N _]; contradiction].
  - apply is0_false in Z. destruct (cross_test l r (det l r) _ _) eqn:C; cbn [negb].
    + apply cross_test_spec in C; auto. fold (lpar l r) (rpar l r) in *. split.
      * intros [<-|[]]. split; auto. split; [apply C|]. exists (rpar l r). split; [apply C|].
        apply meet; auto.
      * intros (_ & _ & s & _ & E). apply meet in E; auto. left. symmetry. apply E.
    + split; [intros []|]. intros (_ & It & s & Is & E). exfalso. apply meet in E; auto.
      destruct E as [-> ->].
      enough (cross_test l r (det l r) (area2 (vsub (lbegin l) (lbegin r)) (lvec r)) (area2 (vsub (lbegin l) (lbegin r)) (lvec l)) = true) by congruence.
      apply cross_test_spec; auto.
Qed.
Lemma intersect_scalar_one l r : (length (intersect_scalar l r) <= 1)%nat.
Proof. unfold intersect_scalar. destruct (is0 _); [cbn; lia|]. destruct (negb _); cbn; lia. Qed.

(** ** Lexicographic order *)
Lemma vless_irrefl a : vless a a = false.
Proof.
  induction a as [|x a IH]; auto. cbn. rewrite IH, andb_false_r, orb_false_r. apply qlt_false, Qcle_refl.
Qed.
Lemma qlt_irrefl x : qlt x x = false. Proof. apply qlt_false, Qcle_refl. Qed.
Lemma vless_translate b : forall u v, length u = length b -> length v = length b ->
  vless (vadd b u) (vadd b v) = vless u v.
Proof.
  induction b as [|x b IH]; intros [|y u] [|z v]; try discriminate; auto.
  intros Hu Hv. cbn [vadd zip]. cbn [vless]. change (zip Qcplus b u) with (vadd b u). change (zip Qcplus b v) with (vadd b v).
  rewrite IH by (cbn in *; lia).
  assert (A : forall p q, qlt (x + p) (x + q) = qlt p q).
  { intros. apply eq_iff_eq_true. rewrite !qlt_spec. split; intros; qlra. }
  now rewrite !A.
Qed.
(** Multiples of a positive vector are ordered by the factors. *)
Lemma vless_scale d : forall x y, vless (map (fun _ => 0) d) d = true ->
  vless (vscale x d) (vscale y d) = qlt x y.
Proof.
  induction d as [|c d IH]; intros x y H; [discriminate|]. cbn [map vless vscale] in *.
  apply orb_true_iff in H. destruct H as [H|H].
  - apply qlt_spec in H.
    assert (A : forall p q, qlt (p * c) (q * c) = qlt p q).
    { intros. apply eq_iff_eq_true. rewrite !qlt_spec. split; intros; [|qnra].
      destruct (Qclt_le_dec p q); auto. exfalso. qnra. }
    rewrite !A. destruct (qlt x y) eqn:E; auto. destruct (qlt y x) eqn:E2; auto. cbn.
    apply qlt_false in E. apply qlt_false in E2.
    assert (x = y) by (apply Qcle_antisym; auto). subst. apply vless_irrefl.
  - apply andb_true_iff in H. destruct H as [H1 H2]. destruct (qlt 0 c) eqn:E0.
    + apply qlt_spec in E0.
      assert (A : forall p q, qlt (p * c) (q * c) = qlt p q).
      { intros. apply eq_iff_eq_true. rewrite !qlt_spec. split; intros; [|qnra].
        destruct (Qclt_le_dec p q); auto. exfalso. qnra. }
      rewrite !A. destruct (qlt x y) eqn:E; auto. destruct (qlt y x) eqn:E2; auto. cbn.
      apply qlt_false in E. apply qlt_false in E2.
      assert (x = y) by (apply Qcle_antisym; auto). subst. apply vless_irrefl.
    + apply negb_true_iff in H1. apply qlt_false in H1. apply qlt_false in E0.
      assert (c = 0) by (apply Qcle_antisym; auto). subst.
      replace (x * 0) with (Q2Qc 0) by ring. replace (y * 0) with (Q2Qc 0) by ring. rewrite qlt_irrefl. cbn.
      now apply IH.
Qed.
Lemma vless_neg d : degenerate d = false -> vless (map (fun _ => 0) d) d = false ->
  vless (map (fun _ => 0) (vscale (- (1)) d)) (vscale (- (1)) d) = true.
Proof.
  induction d as [|c d IH]; [discriminate|]. cbn [map vless vscale degenerate forallb].
  intros D H. apply orb_false_iff in H. destruct H as [H1 H2]. apply qlt_false in H1.
  destruct (is0 c) eqn:E.
  - apply is0_spec in E. subst. rewrite qlt_irrefl in H2. cbn in D, H2.
    replace (- (1) * 0) with (Q2Qc 0) by ring. rewrite qlt_irrefl. cbn. now apply IH.
  - apply is0_false in E. apply orb_true_iff. left. apply qlt_spec.
    destruct (Qcle_lt_or_eq _ _ H1); [qlra | contradiction].
Qed.

(** ** Lines with the same direction and a common point *)
Definition above (k : endpoint) (a x : Qc) : Prop := match k with Free => True | Closed => a <= x | Open => a < x end.
Definition below (k : endpoint) (a x : Qc) : Prop := match k with Free => True | Closed => x <= a | Open => x < a end.

Section Common.
  Variables (o d : vec).
  Hypothesis Len : length o = length d.
  Hypothesis Pos : vless (map (fun _ => 0) d) d = true.
  Definition onto (x : Qc) : vec := vadd o (vscale x d).
  Local Notation P := onto.

  Lemma onto_less x y : vless (P x) (P y) = qlt x y.
  Proof. unfold onto. rewrite vless_translate by (rewrite len_scale; auto). now apply vless_scale. Qed.
  Lemma onto_inj x y : P x = P y -> x = y.
  Proof.
    intros E. apply Qcle_antisym; apply qlt_false; rewrite <- onto_less, E; apply vless_irrefl.
  Qed.
  Lemma onto_eq x y : veq (P x) (P y) = true <-> x = y.
  Proof.
    unfold veq. rewrite !onto_less, andb_true_iff, !negb_true_iff, !qlt_false. split.
    - intros [A B]. now apply Qcle_antisym.
    - intros ->. split; apply Qcle_refl.
  Qed.
  Lemma onto_add b c t : vadd (P b) (vscale t (vscale c d)) = P (b + t * c).
  Proof.
    unfold onto. assert (H : length d = length o) by auto. remember (length o) as n eqn:En. symmetry in En.
    coords n. ring.
  Qed.

  Definition lies_on (m : line) (b c : Qc) : Prop := lbegin m = P b /\ lvec m = vscale c d.
  Lemma lies_at m b c t : lies_on m b c -> at_ m t = P (b + t * c).
  Proof. intros [B C]. unfold at_. rewrite B, C. apply onto_add. Qed.
  Lemma lies_end m b c : lies_on m b c -> lend m = P (b + c).
  Proof.
    intros [B C]. unfold lend. rewrite B, C, <- (vscale_1 (vscale c d)), onto_add. f_equal. ring.
  Qed.
  Lemma lies_contains m b c q : lies_on m b c -> contains m q <-> exists t, q = P (b + t * c) /\ inside m t.
  Proof.
    intros H. unfold contains. split; intros (t & E & I); exists t; rewrite (lies_at m b c) in *; auto.
  Qed.
  Lemma lies_interval m b c : lies_on m b c -> c <> 0 ->
    exists lo klo hi khi, lo < hi /\ get_point m true = (P lo, klo) /\ get_point m false = (P hi, khi)
      /\ (forall q, contains m q <-> exists x, q = P x /\ above klo lo x /\ below khi hi x)
      /\ ((klo = kbegin m /\ khi = kend m) \/ (klo = kend m /\ khi = kbegin m)).
  Proof.
    intros H N. assert (H' := H). destruct H as [B C].
    assert (G : vless (map (fun _ => 0) (lvec m)) (lvec m) = qlt 0 c).
    { rewrite C. unfold vscale at 1. rewrite map_map.
      replace (map (fun _ => 0) d) with (vscale 0 d) by (apply map_ext; intros; ring).
      now apply vless_scale. }
    unfold get_point. rewrite G, (lies_end m b c H'), B. destruct (qlt 0 c) eqn:E; cbn [Bool.eqb].
    - apply qlt_spec in E. exists b, (kbegin m), (b + c), (kend m). repeat split; auto; try qlra.
      + intros Q. apply (lies_contains m b c) in Q; auto. destruct Q as (t & -> & I1 & I2). eexists. split; [reflexivity|].
        destruct (kbegin m), (kend m); cbn [begin_ok end_ok above below] in *; split; auto; qnra.
      + intros (x & -> & A1 & A2). apply (lies_contains m b c); auto. exists ((x - b) / c). split; [f_equal; field; exact N|].
        assert (X : x - b = (x - b) / c * c) by (field; exact N). set (t := (x - b) / c) in *. clearbody t.
        unfold inside. destruct (kbegin m), (kend m); cbn [begin_ok end_ok above below] in *; split; auto; qnra.
    - apply qlt_false in E. assert (c < 0) by (destruct (Qcle_lt_or_eq _ _ E); auto; congruence).
      exists (b + c), (kend m), b, (kbegin m). repeat split; auto; try qlra.
      + intros Q. apply (lies_contains m b c) in Q; auto. destruct Q as (t & -> & I1 & I2). eexists. split; [reflexivity|].
        destruct (kbegin m), (kend m); cbn [begin_ok end_ok above below] in *; split; auto; qnra.
      + intros (x & -> & A1 & A2). apply (lies_contains m b c); auto. exists ((x - b) / c). split; [f_equal; field; exact N|].
        assert (X : x - b = (x - b) / c * c) by (field; exact N). set (t := (x - b) / c) in *. clearbody t.
        unfold inside. destruct (kbegin m), (kend m); cbn [begin_ok end_ok above below] in *; split; auto; qnra.
  Qed.

  Ltac two a b := match goal with
    | |- context [Bool.eqb (qlt ?x ?y) _] => let E := fresh "E" in destruct (qlt x y) eqn:E; [apply qlt_spec in E | apply qlt_false in E]
    end; cbn [Bool.eqb].
  Lemma max_start a ka b kb :
    exists c kc, max_endpoint (P a, ka) (P b, kb) true = (P c, kc)
      /\ ((c = a /\ kc = ka) \/ (c = b /\ kc = kb))
      /\ (kc = Free -> c <= a /\ c <= b /\ ka = Free /\ kb = Free)
      /\ forall x, above kc c x <-> above ka a x /\ above kb b x.
  Proof.
    unfold max_endpoint. cbn [fst snd]. rewrite !onto_less. destruct (veq (P a) (P b)) eqn:V.
    - apply onto_eq in V. subst b.
      destruct ka, kb; cbn [is_free negb ep_val Nat.leb]; try two a b;
        eexists; eexists; (split; [reflexivity|]); cbn [above];
          repeat split; auto; try discriminate; try (apply Qcle_refl); try tauto;
          try (intros; repeat split; qlra); try (intros; qlra).
    - assert (Nab : a <> b) by (intros E0; apply onto_eq in E0; congruence).
      assert (Dab : a < b \/ b < a).
      { destruct (Qclt_le_dec a b) as [?|K]; auto. right. destruct (Qcle_lt_or_eq _ _ K); auto. congruence. }
      clear V Nab. destruct ka, kb; cbn [is_free negb]; try two a b; destruct Dab as [Dab|Dab]; try (exfalso; qlra);
        eexists; eexists; (split; [reflexivity|]); cbn [above];
          repeat split; auto; try discriminate; try (apply Qcle_refl); try tauto;
          try (intros; repeat split; qlra); try (intros; qlra).
  Qed.
  Lemma max_end a ka b kb :
    exists c kc, max_endpoint (P a, ka) (P b, kb) false = (P c, kc)
      /\ ((c = a /\ kc = ka) \/ (c = b /\ kc = kb))
      /\ (kc = Free -> a <= c /\ b <= c /\ ka = Free /\ kb = Free)
      /\ forall x, below kc c x <-> below ka a x /\ below kb b x.
  Proof.
    unfold max_endpoint. cbn [fst snd]. rewrite !onto_less. destruct (veq (P a) (P b)) eqn:V.
    - apply onto_eq in V. subst b.
      destruct ka, kb; cbn [is_free negb ep_val Nat.leb]; try two a b;
        eexists; eexists; (split; [reflexivity|]); cbn [below];
          repeat split; auto; try discriminate; try (apply Qcle_refl); try tauto;
          try (intros; repeat split; qlra); try (intros; qlra).
    - assert (Nab : a <> b) by (intros E0; apply onto_eq in E0; congruence).
      assert (Dab : a < b \/ b < a).
      { destruct (Qclt_le_dec a b) as [?|K]; auto. right. destruct (Qcle_lt_or_eq _ _ K); auto. congruence. }
      clear V Nab. destruct ka, kb; cbn [is_free negb]; try two a b; destruct Dab as [Dab|Dab]; try (exfalso; qlra);
        eexists; eexists; (split; [reflexivity|]); cbn [below];
          repeat split; auto; try discriminate; try (apply Qcle_refl); try tauto;
          try (intros; repeat split; qlra); try (intros; qlra).
  Qed.
  Lemma onto_sub a b : vsub (P b) (P a) = vscale (b - a) d.
  Proof.
    unfold onto. assert (H : length d = length o) by auto. remember (length o) as n eqn:En. symmetry in En.
    coords n. ring.
  Qed.
  Lemma make_contains lo klo hi khi q : (lo < hi \/ lo = hi /\ klo = Closed /\ khi = Closed) ->
    contains (make_any_line (P lo) klo (P hi) khi) q <-> exists x, q = P x /\ above klo lo x /\ below khi hi x.
  Proof.
    intros D. unfold make_any_line. destruct (Nat.ltb (ep_val klo) (ep_val khi)).
    - rewrite onto_sub. rewrite (lies_contains _ hi (lo - hi)) by (split; reflexivity). unfold inside. cbn [kbegin kend].
      split.
      + intros (t & -> & I1 & I2). eexists. split; [reflexivity|].
        destruct D as [D|(-> & -> & ->)]; [|cbn [begin_ok end_ok above below] in *; split; qlra].
        destruct klo, khi; cbn [begin_ok end_ok above below] in *; split; auto; qnra.
      + intros (x & -> & A & B). destruct D as [D|(-> & -> & ->)].
        * assert (N : lo - hi <> 0) by (intros E; qlra).
          exists ((x - hi) / (lo - hi)). split; [f_equal; field; exact N|].
          assert (X : x - hi = (x - hi) / (lo - hi) * (lo - hi)) by (field; exact N).
          set (t := (x - hi) / (lo - hi)) in *. clearbody t.
          destruct klo, khi; cbn [begin_ok end_ok above below] in *; split; auto; qnra.
        * exists 0. cbn [begin_ok end_ok above below] in *. split; [f_equal; qlra | split; [apply Qcle_refl | qlra]].
    - rewrite onto_sub. rewrite (lies_contains _ lo (hi - lo)) by (split; reflexivity). unfold inside. cbn [kbegin kend].
      split.
      + intros (t & -> & I1 & I2). eexists. split; [reflexivity|].
        destruct D as [D|(-> & -> & ->)]; [|cbn [begin_ok end_ok above below] in *; split; qlra].
        destruct klo, khi; cbn [begin_ok end_ok above below] in *; split; auto; qnra.
      + intros (x & -> & A & B). destruct D as [D|(-> & -> & ->)].
        * assert (N : hi - lo <> 0) by (intros E; qlra).
          exists ((x - lo) / (hi - lo)). split; [f_equal; field; exact N|].
          assert (X : x - lo = (x - lo) / (hi - lo) * (hi - lo)) by (field; exact N).
          set (t := (x - lo) / (hi - lo)) in *. clearbody t.
          destruct klo, khi; cbn [begin_ok end_ok above below] in *; split; auto; qnra.
        * exists 0. cbn [begin_ok end_ok above below] in *. split; [f_equal; qlra | split; [apply Qcle_refl | qlra]].
  Qed.
  Lemma common_spec l r bl cl br cr : lies_on l bl cl -> lies_on r br cr -> cl <> 0 -> cr <> 0 ->
    (common_line l r = [] -> forall q, ~ (contains l q /\ contains r q))
    /\ ((exists q, contains l q /\ contains r q) ->
        exists m, common_line l r = [m] /\ forall q, contains m q <-> contains l q /\ contains r q)
    /\ (common_line l r <> [] ->
        (kbegin l <> Open /\ kend l <> Open /\ kbegin r <> Open /\ kend r <> Open) -> exists q, contains l q /\ contains r q).
  Proof.
    intros Hl Hr Nl Nr.
    destruct (lies_interval l bl cl Hl Nl) as (a & ka & b & kb & Lab & G1 & G2 & C1 & K1).
    destruct (lies_interval r br cr Hr Nr) as (a' & ka' & b' & kb' & Lab' & G1' & G2' & C2 & K2).
    unfold common_line. rewrite G1, G2, G1', G2'.
    destruct (max_start a ka a' ka') as (lo & klo & E1 & W1 & F1 & A1).
    destruct (max_end b kb b' kb') as (hi & khi & E2 & W2 & F2 & A2).
    rewrite E1, E2. cbn [fst snd]. clear E1 E2 G1 G2 G1' G2'.
    assert (Both : forall q, contains l q /\ contains r q <-> exists x, q = P x /\ above klo lo x /\ below khi hi x).
    { intros q. rewrite C1, C2. split.
      - intros [(x & -> & P1 & P2) (y & E & P3 & P4)]. apply onto_inj in E. subst y. exists x. rewrite A1, A2. tauto.
      - intros (x & -> & P1 & P2). rewrite A1 in P1. rewrite A2 in P2. split; exists x; tauto. }
    (* free starts or ends *)
    assert (Free1 : klo = Free -> lo < hi).
    { intros F. destruct (F1 F) as (L1 & L2 & _). destruct W2 as [[-> _]|[-> _]]; qlra. }
    assert (Free2 : khi = Free -> lo < hi).
    { intros F. destruct (F2 F) as (L1 & L2 & _). destruct W1 as [[-> _]|[-> _]]; qlra. }
    assert (T : endpoint_test vless klo (P lo) (P hi) = true <-> klo = Free \/ klo = Closed /\ lo <= hi \/ klo = Open /\ lo < hi).
    { unfold endpoint_test. destruct klo; rewrite ?onto_less, ?negb_true_iff, ?qlt_false, ?qlt_spec; intuition (try discriminate; auto). }
    split; [|split].
    - destruct (endpoint_test vless klo (P lo) (P hi)) eqn:Te; [discriminate|]. intros _ q Q. apply Both in Q.
      destruct Q as (x & -> & Q1 & Q2). enough (false = true) by discriminate. apply T.
      destruct klo; auto; right; [left | right]; split; auto; destruct khi; cbn [above below] in *;
        try (specialize (Free2 eq_refl)); qlra.
    - intros (q & Q). apply Both in Q. destruct Q as (x & -> & Q1 & Q2).
      assert (Te : endpoint_test vless klo (P lo) (P hi) = true).
      { apply T. destruct klo; auto; right; [left | right]; split; auto; destruct khi; cbn [above below] in *;
          try (specialize (Free2 eq_refl)); qlra. }
      rewrite Te. eexists. split; [reflexivity|]. intros q. rewrite Both. apply make_contains.
      destruct klo, khi; cbn [above below] in *; auto;
        try (left; qlra).
      assert (L : lo <= hi) by qlra. destruct (Qcle_lt_or_eq _ _ L); auto.
    - intros No (O1 & O2 & O3 & O4). destruct (endpoint_test vless klo (P lo) (P hi)) eqn:Te; [|now contradiction No].
      exists (P lo). apply Both. exists lo. split; auto. assert (Te' := proj1 T eq_refl).
      assert (klo <> Open).
      { destruct W1 as [[_ ->]|[_ ->]]; [destruct K1 as [[-> _]|[-> _]] | destruct K2 as [[-> _]|[-> _]]]; auto. }
      assert (khi <> Open).
      { destruct W2 as [[_ ->]|[_ ->]]; [destruct K1 as [[_ ->]|[_ ->]] | destruct K2 as [[_ ->]|[_ ->]]]; auto. }
      destruct klo, khi; cbn [above below]; try congruence; repeat split; auto; try apply Qcle_refl;
        try (specialize (Free1 eq_refl)); try qlra.
      destruct Te' as [?|[[_ ?]|[? _]]]; try discriminate; auto.
  Qed.
End Common.

(** ** Intersection of two lines of the plane *)
Lemma par2 a b c e : a * e - b * c = 0 -> degenerate [c; e] = false -> exists k, [a; b] = vscale k [c; e].
Proof.
  intros Z D. assert (N := dot_pos _ D). rewrite !dot_cons, dot_nil_l, Qcplus_0_r in N.
  exists ((a * c + b * e) / (c * c + e * e)). cbn [vscale map]. apply cons2_eq. split.
  - apply Qc_sub0. replace (a - (a * c + b * e) / (c * c + e * e) * c)
      with ((a * e - b * c) * e / (c * c + e * e)) by (field; exact N). rewrite Z. field. exact N.
  - apply Qc_sub0. replace (b - (a * c + b * e) / (c * c + e * e) * e)
      with (- (a * e - b * c) * c / (c * c + e * e)) by (field; exact N). rewrite Z. field. exact N.
Qed.
Lemma vscale_nondeg k d : degenerate (vscale k d) = false -> k <> 0.
Proof.
  intros H ->. enough (degenerate (vscale 0 d) = true) by congruence. unfold degenerate, vscale.
  apply forallb_forall. intros x Hx. apply in_map_iff in Hx. destruct Hx as (y & <- & _). apply is0_spec. ring.
Qed.
Lemma area2_vec u v : length u = 2%nat -> length v = 2%nat -> area2 u v = 0 -> degenerate v = false ->
  exists k, u = vscale k v.
Proof.
  intros Hu Hv. destruct u as [|a [|b [|]]]; try discriminate. destruct v as [|c [|e [|]]]; try discriminate.
  cbn [area2]. apply par2.
Qed.
Lemma area2_swap u v : area2 u v = - area2 v u.
Proof. destruct u as [|a [|b [|]]], v as [|c [|e [|]]]; cbn [area2]; ring. Qed.
Lemma positive_direction v : degenerate v = false ->
  exists d k, vless (map (fun _ => 0) d) d = true /\ v = vscale k d /\ k <> 0 /\ length d = length v.
Proof.
  intros D. destruct (vless (map (fun _ => 0) v) v) eqn:E.
  - exists v, 1. rewrite vscale_1. repeat split; auto. discriminate.
  - exists (vscale (- (1)) v), (- (1)). split; [now apply vless_neg|]. rewrite vscale_vscale.
    replace (- (1) * - (1)) with (Q2Qc 1) by ring. rewrite vscale_1, len_scale. repeat split; auto. discriminate.
Qed.
Lemma same_line l r : flat l -> flat r -> degenerate (lvec l) = false -> degenerate (lvec r) = false ->
  det l r = 0 -> area2 (vsub (lbegin l) (lbegin r)) (lvec r) = 0 ->
  exists o d bl cl br cr, length o = length d /\ vless (map (fun _ => 0) d) d = true
    /\ lies_on o d l bl cl /\ lies_on o d r br cr /\ cl <> 0 /\ cr <> 0.
Proof.
  intros [Fl1 Fl2] [Fr1 Fr2] Dl Dr Z A.
  destruct (positive_direction _ Dr) as (d & k & Pos & Ed & Nk & Ld).
  destruct (area2_vec (lvec l) (lvec r)) as (j & Ej); auto.
  { unfold det in Z. rewrite area2_swap, Z. ring. }
  destruct (area2_vec (vsub (lbegin l) (lbegin r)) (lvec r)) as (i & Ei); auto.
  { now apply len_vsub_n. }
  exists (lbegin r), d, (i * k), (j * k), 0, k. split; [congruence|]. split; [exact Pos|].
  assert (Nj : j <> 0) by (apply (vscale_nondeg j (lvec r)); congruence).
  split; [|split; [|split; auto]].
  - split.
    + unfold onto. rewrite <- vscale_vscale, <- Ed, <- Ei. symmetry. apply vadd_vsub. congruence.
    + rewrite Ej, Ed. apply vscale_vscale.
  - split; [|exact Ed]. unfold onto. apply (vec_ext_n 2); auto.
    + apply len_vadd_n; auto. rewrite len_scale. congruence.
    + intros q Hq. rewrite (nth_vadd 2), nth_vscale by (auto; rewrite len_scale; congruence). ring.
  - intros H. destruct (Qcmult_integral _ _ H); auto.
Qed.
Lemma point_contains q q' : length q = 2%nat -> contains (L q [0; 0] Closed Closed) q' <-> q' = q.
Proof.
  intros Hq. assert (A : forall t, at_ (L q [0; 0] Closed Closed) t = q).
  { intros t. destruct q as [|x [|y [|]]]; try discriminate. unfold at_. cbn [lbegin lvec vadd vscale zip map].
    apply cons2_eq. split; ring. }
  unfold contains. split.
  - intros (t & -> & _). apply A.
  - intros ->. exists 0. split; [now rewrite A|]. split; cbn [kbegin kend begin_ok end_ok]; [apply Qcle_refl | discriminate].
Qed.
Lemma parallel_common l r : flat l -> flat r -> det l r = 0 ->
  (exists q, contains l q /\ contains r q) -> area2 (vsub (lbegin l) (lbegin r)) (lvec r) = 0.
Proof.
  intros [Hl1 Hl2] [Hr1 Hr2] Z (q & (t & -> & _) & (s & E & _)). unfold det in *.
  planar l. planar r. unfold at_ in E. cbn [lbegin lvec vadd vscale zip map area2 vsub] in *.
  apply cons2_eq in E. destruct E as [E1 E2].
  match goal with |- (?bx - ?cx) * ?wy - (?by_ - ?cy) * ?wx = 0 =>
    match type of Z with wx * ?vy - wy * ?vx = 0 =>
      replace ((bx - cx) * wy - (by_ - cy) * wx)
        with ((bx + t * vx) * wy - (by_ + t * vy) * wx - (cx * wy - cy * wx) + t * (wx * vy - wy * vx)) by ring
    end end.
  rewrite E1, E2, Z. ring.
Qed.
Lemma intersect_spec l r : flat l -> flat r -> degenerate (lvec l) = false -> degenerate (lvec r) = false ->
  (intersect l r = [] -> forall q, ~ (contains l q /\ contains r q))
  /\ ((exists q, contains l q /\ contains r q) ->
      exists m, intersect l r = [m] /\ forall q, contains m q <-> contains l q /\ contains r q)
  /\ (intersect l r <> [] ->
      (det l r <> 0 \/ kbegin l <> Open /\ kend l <> Open /\ kbegin r <> Open /\ kend r <> Open) ->
      exists q, contains l q /\ contains r q).
Proof.
  intros Fl Fr Dl Dr. unfold intersect. fold (det l r). destruct (is0 (det l r)) eqn:Z.
  - apply is0_spec in Z. destruct (is0 (area2 (vsub (lbegin l) (lbegin r)) (lvec r))) eqn:A; cbn [negb].
    + apply is0_spec in A. destruct (same_line l r Fl Fr Dl Dr Z A) as (o & d & bl & cl & br & cr & Len & Pos & Ol & Or & Nl & Nr).
      destruct (common_spec o d Len Pos l r bl cl br cr Ol Or Nl Nr) as (C1 & C2 & C3).
      split; [exact C1|]. split; [exact C2|]. intros No [?|Op]; [contradiction|]. now apply C3.
    + apply is0_false in A. assert (No : ~ exists q, contains l q /\ contains r q).
      { intros H. apply A. now apply parallel_common. }
      split; [intros _ q Q; apply No; now exists q|]. split; [intros H; contradiction | intros H; now contradiction H].
  - apply is0_false in Z. destruct (cross_test l r (det l r) _ _) eqn:C; cbn [negb].
    + apply cross_test_spec in C; auto. fold (lpar l r) (rpar l r) in C.
      change (area2 (vsub (lbegin l) (lbegin r)) (lvec r) / det l r) with (lpar l r).
      assert (M : at_ l (lpar l r) = at_ r (rpar l r)) by (apply meet; auto).
      assert (B : contains l (at_ l (lpar l r)) /\ contains r (at_ l (lpar l r))).
      { split; [exists (lpar l r) | exists (rpar l r)]; tauto. }
      split; [discriminate|]. split.
      * intros _. eexists. split; [reflexivity|]. intros q. rewrite point_contains by (destruct Fl; now apply len_at_n). split.
        -- intros ->. exact B.
        -- intros [(t & -> & _) (s & E & _)]. apply meet in E; auto. now destruct E as [-> _].
      * intros _ _. eexists. exact B.
    + assert (No : forall q, ~ (contains l q /\ contains r q)).
      { intros q [(t & -> & It) (s & E & Is)]. apply meet in E; auto. destruct E as [-> ->].
        enough (cross_test l r (det l r) (area2 (vsub (lbegin l) (lbegin r)) (lvec r)) (area2 (vsub (lbegin l) (lbegin r)) (lvec l)) = true) by congruence.
        apply cross_test_spec; auto. }
      split; [auto|]. split; [intros (q & Q); now apply No in Q | intros H; now contradiction H].
Qed.

(** ** Point of a line *)
Lemma veq_spec a : forall b, length a = length b -> veq a b = true <-> a = b.
Proof.
  induction a as [|x a IH]; intros [|y b]; try discriminate; [now vm_compute|].
  intros E. cbn in E. injection E as E. split; [|intros ->; unfold veq; now rewrite vless_irrefl].
  unfold veq. cbn [vless]. rewrite andb_true_iff, !negb_true_iff, !orb_false_iff. intros [[A A'] [B B']].
  rewrite B in A'. rewrite A in B'. cbn in A', B'. apply qlt_false in A. apply qlt_false in B.
  rewrite (Qcle_antisym _ _ B A). f_equal. apply IH; auto. unfold veq. now rewrite A', B'.
Qed.
Lemma at_origin l n t : length (lbegin l) = n -> length (lvec l) = n -> degenerate (lvec l) = false ->
  at_ l t = lbegin l -> t = 0.
Proof.
  intros Hb Hv D E. rewrite (lbegin_at l n Hb Hv) in E.
  assert (E2 := f_equal (fun p => project_scalar p l) E). cbn in E2.
  now rewrite !(project_at l n) in E2.
Qed.
Lemma between_spec l n t : length (lbegin l) = n -> length (lvec l) = n -> degenerate (lvec l) = false ->
  valid_kind l = true -> between_endpoints (at_ l t) l = true <-> inside l t.
Proof.
  intros Hb Hv D Va. assert (VP := vv_pos l D). set (vv := dot (lvec l) (lvec l)) in *.
  assert (La : length (at_ l t) = n) by now apply len_at_n.
  assert (D1 : dot (vsub (at_ l t) (lbegin l)) (lvec l) = t * vv).
  { rewrite (dot_begin l D), (project_at l n); auto. }
  assert (S1 : vsub (lbegin l) (at_ l t) = vscale (- t) (lvec l)).
  { coords n. ring. }
  assert (S2 : vsub (at_ l t) (lend l) = vscale (t - 1) (lvec l)).
  { rewrite (lend_at l). coords n. ring. }
  unfold between_endpoints. rewrite D1, S1, S2, dot_vscale, (dot_comm (lvec l) (vscale _ _)), dot_vscale. fold vv.
  assert (Veq : veq (at_ l t) (lbegin l) = true <-> t = 0).
  { rewrite veq_spec by congruence. split; [now apply (at_origin l n)|]. intros ->. symmetry. now apply (lbegin_at l n). }
  unfold valid_kind, inside, is_half_open in *.
  assert (Vn : vv <> 0) by (intros H; rewrite H in VP; now apply Qclt_not_eq in VP).
  destruct (kbegin l), (kend l); cbn [ep_val Nat.leb is_free andb endpoint_test begin_ok end_ok] in *; try discriminate.
  - tauto.
  - rewrite negb_true_iff, qlt_false. split; [intros H; split; auto; qnra | intros [H _]; qnra].
  - rewrite negb_true_iff, qlt_false. split.
    + intros H. assert (0 <= t * (1 - t)) by qnra. clear - H0. split; qnra.
    + intros [H1 H2]. assert (0 <= t * (1 - t)) by qnra. clear - H VP. qnra.
  - rewrite qlt_spec. split; [intros H; split; auto; qnra | intros [H _]; qnra].
  - destruct (veq (at_ l t) (lbegin l)) eqn:V.
    + assert (V' := proj1 Veq eq_refl). subst. split; [discriminate | intros [H _]; qlra].
    + rewrite negb_true_iff, qlt_false. assert (Nt : t <> 0) by (intros H; apply (proj2 Veq) in H; discriminate). split.
      * intros H. assert (0 <= t * (1 - t)) by qnra. clear - H0 Nt.
        assert (0 <= t) by qnra. split; [|qnra]. destruct (Qcle_lt_or_eq _ _ H); auto. congruence.
      * intros [H1 H2]. assert (0 <= t * (1 - t)) by qnra. clear - H VP. qnra.
  - rewrite qlt_spec. split.
    + intros H. assert (0 < t * (1 - t)) by qnra. clear - H0. split; qnra.
    + intros [H1 H2]. assert (0 < t * (1 - t)) by qnra. clear - H VP. qnra.
Qed.
Lemma collinear_spec l r n : length l = n -> length r = n -> degenerate r = false -> (n = 2%nat \/ degenerate l = false) ->
  collinear l r = true <-> exists k, l = vscale k r.
Proof.
  intros Hl Hr D C. assert (Dec : n = 2%nat \/ n <> 2%nat) by lia. destruct Dec as [->|N].
  - destruct l as [|a [|b [|]]]; try discriminate. destruct r as [|c [|e [|]]]; try discriminate.
    cbn [collinear area2]. rewrite is0_spec. split.
    + intros Z. apply par2; auto. replace (a * e - b * c) with (- (c * b - e * a)) by ring. rewrite Z. ring.
    + intros (k & E). cbn [vscale map] in E. apply cons2_eq in E. destruct E as [-> ->]. ring.
  - destruct C as [?|C]; [congruence|].
    assert (E : collinear l r = collinear_n l r).
    { destruct l as [|a [|b [|c l]]]; auto. exfalso. now apply N. }
    rewrite E, collinear_n_spec by congruence. split.
    + intros (k & ->). assert (Nk := vscale_nondeg _ _ D). exists (/ k).
      rewrite vscale_vscale, Qcmult_comm, Qcmult_inv_r, vscale_1; auto.
    + intros (k & ->). assert (Nk := vscale_nondeg _ _ C). exists (/ k).
      rewrite vscale_vscale, Qcmult_comm, Qcmult_inv_r, vscale_1; auto.
Qed.
Lemma within_line_spec l p n : length (lbegin l) = n -> length (lvec l) = n -> length p = n ->
  degenerate (lvec l) = false -> valid_kind l = true -> (n = 2%nat \/ p <> lbegin l) ->
  within_line p l = Border <-> contains l p.
Proof.
  intros Hb Hv Hp D Va C. unfold within_line. rewrite D.
  assert (Dp : n = 2%nat \/ degenerate (vsub p (lbegin l)) = false).
  { destruct C as [C|C]; auto. right. destruct (degenerate (vsub p (lbegin l))) eqn:E; auto. exfalso. apply C.
    apply (vec_ext_n n); auto. intros i Hi. unfold degenerate in E. rewrite forallb_forall in E.
    assert (Ls : length (vsub p (lbegin l)) = n) by now apply len_vsub_n.
    assert (K : nth i (vsub p (lbegin l)) 0 = 0) by (apply is0_spec, E, nth_In; lia).
    rewrite (nth_vsub n) in K by auto. now apply Qc_sub0. }
  assert (Cs := collinear_spec (vsub p (lbegin l)) (lvec l) n (len_vsub_n _ _ _ Hp Hb) Hv D Dp).
  assert (At : (exists t, p = at_ l t) <-> exists k, vsub p (lbegin l) = vscale k (lvec l)).
  { split; intros (t & E); exists t.
    - subst p. now rewrite (at_minus l n).
    - unfold at_. rewrite <- E. symmetry. apply vadd_vsub. congruence. }
  destruct (collinear (vsub p (lbegin l)) (lvec l)) eqn:Co; cbn [negb].
  - assert (X := proj2 At (proj1 Cs eq_refl)). destruct X as (t & ->).
    assert (B := between_spec l n t Hb Hv D Va). destruct (between_endpoints (at_ l t) l) eqn:E.
    + split; auto. intros _. exists t. split; auto. now apply B.
    + split; [discriminate|]. intros (s & Es & I).
      assert (t = s).
      { assert (E2 := f_equal (fun p => project_scalar p l) Es). cbn in E2. now rewrite !(project_at l n) in E2. }
      subst s. apply B in I. discriminate.
  - split; [discriminate|]. intros (t & E & _). exfalso. enough (false = true) by discriminate.
    apply Cs, At. now exists t.
Qed.

(** ** Circumcenter *)
Lemma circumcenter_spec a b c : length a = 2%nat -> length b = 2%nat -> length c = 2%nat ->
  area2 (vsub b c) (vsub a c) <> 0 ->
  exists o, circumcenter a b c = Ok o /\ length o = 2%nat
    /\ norm2 (vsub o a) = norm2 (vsub o b) /\ norm2 (vsub o a) = norm2 (vsub o c).
Proof.
  intros Ha Hb Hc N. unfold circumcenter. destruct (is0 (area2 (vsub b c) (vsub a c))) eqn:Z.
  { apply is0_spec in Z. contradiction. }
  destruct a as [|ax [|ay [|]]]; try discriminate. destruct b as [|bx [|by_ [|]]]; try discriminate.
  destruct c as [|cx [|cy [|]]]; try discriminate. clear Z.
  cbn [vsub vadd zip perpendicular area2] in *.
  unfold intersect_general, intersect_scalar. cbn [lbegin lvec kbegin kend vsub zip area2].
  destruct (is0 _) eqn:E.
  { exfalso. apply is0_spec in E. apply N. rewrite <- E. ring. }
  apply is0_false in E. unfold cross_test, line_test. cbn [kbegin kend endpoint_test andb].
  replace (if qlt _ _ then true else true) with true by (destruct (qlt _ _); reflexivity). cbn [negb map].
  eexists. split; [reflexivity|]. unfold at_. cbn [lbegin lvec vadd vscale zip map vsub]. split; [reflexivity|].
  unfold norm2. rewrite !dot_cons, !dot_nil_l.
  assert (H2 : (1 + 1) <> 0) by discriminate. split; field; split; auto.
Qed.
Lemma circumcenter_unique a b c o o' : length a = 2%nat -> length b = 2%nat -> length c = 2%nat ->
  length o = 2%nat -> length o' = 2%nat -> area2 (vsub b c) (vsub a c) <> 0 ->
  norm2 (vsub o a) = norm2 (vsub o b) -> norm2 (vsub o a) = norm2 (vsub o c) ->
  norm2 (vsub o' a) = norm2 (vsub o' b) -> norm2 (vsub o' a) = norm2 (vsub o' c) -> o = o'.
Proof.
  intros Ha Hb Hc Ho Ho' N E1 E2 E3 E4.
  destruct a as [|ax [|ay [|]]]; try discriminate. destruct b as [|bx [|by_ [|]]]; try discriminate.
  destruct c as [|cx [|cy [|]]]; try discriminate. destruct o as [|ox [|oy [|]]]; try discriminate.
  destruct o' as [|px [|py [|]]]; try discriminate.
  unfold norm2 in *. cbn [vsub zip area2] in *. rewrite !dot_cons, !dot_nil_l in *.
  (* both differences are orthogonal to two independent directions *)
  assert (A : (ox - px) * (ax - bx) + (oy - py) * (ay - by_) = 0) by (clear N; qlra || qnra).
  assert (B : (ox - px) * (ax - cx) + (oy - py) * (ay - cy) = 0) by (clear N A; qlra || qnra).
  assert (Dt : (ax - bx) * (ay - cy) - (ay - by_) * (ax - cx) <> 0).
  { intros H. apply N. replace ((bx - cx) * (ay - cy) - (by_ - cy) * (ax - cx))
      with (- ((ax - bx) * (ay - cy) - (ay - by_) * (ax - cx))) by ring. rewrite H. ring. }
  apply cons2_eq. split; apply Qc_sub0.
  - assert (K : (ox - px) * ((ax - bx) * (ay - cy) - (ay - by_) * (ax - cx)) = 0).
    { replace ((ox - px) * ((ax - bx) * (ay - cy) - (ay - by_) * (ax - cx)))
        with (((ox - px) * (ax - bx) + (oy - py) * (ay - by_)) * (ay - cy) - ((ox - px) * (ax - cx) + (oy - py) * (ay - cy)) * (ay - by_)) by ring.
      rewrite A, B. ring. }
    destruct (Qcmult_integral _ _ K); [auto | contradiction].
  - assert (K : (oy - py) * ((ax - bx) * (ay - cy) - (ay - by_) * (ax - cx)) = 0).
    { replace ((oy - py) * ((ax - bx) * (ay - cy) - (ay - by_) * (ax - cx)))
        with (((ox - px) * (ax - cx) + (oy - py) * (ay - cy)) * (ax - bx) - ((ox - px) * (ax - bx) + (oy - py) * (ay - by_)) * (ax - cx)) by ring.
      rewrite A, B. ring. }
    destruct (Qcmult_integral _ _ K); [auto | contradiction].
Qed.

(** ** Line and sphere *)
Lemma sphere_param l s t n : length (lbegin l) = n -> length (lvec l) = n -> length (center s) = n ->
  degenerate (lvec l) = false ->
  let vv := dot (lvec l) (lvec l) in let x := t * vv - dot (vsub (center s) (lbegin l)) (lvec l) in
  norm2 (vsub (at_ l t) (center s)) = radius s * radius s <-> x * x = sphere_delta l s.
Proof.
  intros Hb Hv Hc D vv x. set (w := vsub (center s) (lbegin l)) in *.
  assert (Lw : length w = n) by now apply len_vsub_n.
  assert (E : vsub (at_ l t) (center s) = vsub (vscale t (lvec l)) w).
  { unfold w. coords n. ring. }
  assert (Nm : norm2 (vsub (at_ l t) (center s)) = t * t * vv - (1 + 1) * t * dot w (lvec l) + dot w w).
  { rewrite E, norm2_vsub by (rewrite len_scale; congruence). unfold norm2.
    rewrite !dot_vscale, (dot_comm (lvec l) (vscale _ _)), dot_vscale, (dot_comm (lvec l) w). fold vv. ring. }
  rewrite Nm. unfold sphere_delta, area_squared. fold w vv. unfold x.
  assert (Vn := vv_neq l D). fold vv in Vn. set (p := dot w (lvec l)). set (ww := dot w w).
  split; intros H.
  - replace ((t * vv - p) * (t * vv - p)) with ((t * t * vv - (1 + 1) * t * p + ww) * vv - (ww * vv - p * p)) by ring.
    rewrite H. ring.
  - apply Qc_sub0. assert (K : (t * t * vv - (1 + 1) * t * p + ww - radius s * radius s) * vv = 0).
    { replace ((t * t * vv - (1 + 1) * t * p + ww - radius s * radius s) * vv)
        with ((t * vv - p) * (t * vv - p) - (vv * (radius s * radius s) - (ww * vv - p * p))) by ring.
      rewrite H. ring. }
    destruct (Qcmult_integral _ _ K); [auto | contradiction].
Qed.
Lemma intersect_sphere_spec root l s n : length (lbegin l) = n -> length (lvec l) = n -> length (center s) = n ->
  degenerate (lvec l) = false -> (forall x, 0 < x -> x = sphere_delta l s -> root x * root x = x) ->
  forall t, In t (intersect_sphere root l s) <-> inside l t /\ norm2 (vsub (at_ l t) (center s)) = radius s * radius s.
Proof.
  intros Hb Hv Hc D R t. rewrite (sphere_param l s t n) by auto. cbv zeta.
  unfold intersect_sphere. assert (VP := vv_pos l D). assert (Vn := vv_neq l D).
  set (vv := dot (lvec l) (lvec l)) in *. set (p := dot (vsub (center s) (lbegin l)) (lvec l)).
  set (de := sphere_delta l s) in *.
  assert (Ck : forall x, In t (if line_test l x vv then [x / vv] else []) <-> inside l t /\ t * vv - p = x - p).
  { intros x. destruct (line_test l x vv) eqn:T.
    - apply line_test_spec in T; auto. split.
      + intros [<-|[]]. split; auto. field. exact Vn.
      + intros [_ E]. left. assert (E2 : t * vv = x) by qlra. rewrite <- E2. field. exact Vn.
    - split; [intros []|]. intros [I E]. enough (false = true) by discriminate. rewrite <- T. apply line_test_spec; auto.
      assert (E2 : t * vv = x) by qlra. replace (x / vv) with t; auto. rewrite <- E2. field. exact Vn. }
  destruct (qlt de 0) eqn:N.
  - apply qlt_spec in N. split; [intros []|]. intros [_ H]. exfalso.
    assert (Sq := Qc_sq_nonneg (t * vv - p)). rewrite H in Sq. qlra.
  - apply qlt_false in N. destruct (is0 de) eqn:Z.
    + apply is0_spec in Z. rewrite Ck, Z. split; intros [I H]; split; auto.
      * rewrite H. ring.
      * assert (H0 : t * vv - p = 0) by (destruct (Qcmult_integral _ _ H); auto). rewrite H0. ring.
    + apply is0_false in Z. assert (Pd : 0 < de) by (destruct (Qcle_lt_or_eq _ _ N); auto; congruence).
      specialize (R de Pd eq_refl). rewrite in_app_iff, !Ck. split.
      * intros [[I H]|[I H]]; split; auto; rewrite H; rewrite <- R at 3; ring.
      * intros [I H]. rewrite <- R in H.
        assert (K : (t * vv - p - root de) * (t * vv - p + root de) = 0).
        { replace ((t * vv - p - root de) * (t * vv - p + root de)) with ((t * vv - p) * (t * vv - p) - root de * root de) by ring.
          rewrite H. ring. }
        destruct (Qcmult_integral _ _ K) as [K1|K1]; [right | left]; split; auto; qlra.
Qed.

(** ** Two circles *)
Lemma circles_frame (u v x y : Qc) : u * u + v * v <> 0 ->
  exists al be, x = al * u - be * v /\ y = al * v + be * u.
Proof.
  intros N. exists ((x * u + y * v) / (u * u + v * v)), ((y * u - x * v) / (u * u + v * v)).
  split; field; exact N.
Qed.
Lemma intersect_circles_spec root l r : length (center l) = 2%nat -> length (center r) = 2%nat ->
  center l <> center r -> 0 <= radius l -> 0 <= radius r ->
  (0 < circles_disc l r -> root (circles_disc l r) * root (circles_disc l r) = circles_disc l r) ->
  exists res, intersect_circles root l r = Ok res
    /\ forall q, In q res <-> length q = 2%nat /\ norm2 (vsub q (center l)) = radius l * radius l
                              /\ norm2 (vsub q (center r)) = radius r * radius r.
Proof.
  intros Hl Hr N Pl Pr R. destruct l as [cl a], r as [cr b]. cbn [center radius] in *.
  destruct cl as [|lx [|ly [|]]]; try discriminate. destruct cr as [|rx [|ry [|]]]; try discriminate.
  unfold intersect_circles, circles_disc in *. cbn [center radius vsub zip perpendicular] in *. rewrite !dot_cons, dot_nil_l in *.
  replace ((rx - lx) * (rx - lx) + ((ry - ly) * (ry - ly) + 0)) with ((rx - lx) * (rx - lx) + (ry - ly) * (ry - ly)) in * by ring.
  set (u := rx - lx) in *. set (v := ry - ly) in *. set (d2 := u * u + v * v) in *.
  assert (Nd : d2 <> 0).
  { intros H. destruct (Qc_sum0 (u * u) (v * v)) as [Zu Zv]; auto using Qc_sq_nonneg.
    apply N. apply cons2_eq. split; symmetry; apply Qc_sub0; [destruct (Qcmult_integral _ _ Zu) | destruct (Qcmult_integral _ _ Zv)]; auto. }
  assert (Pd : 0 < d2).
  { assert (0 <= d2) by (apply Qc_add_nonneg; apply Qc_sq_nonneg). destruct (Qcle_lt_or_eq _ _ H); auto. congruence. }
  set (A := (a * a - b * b) / d2) in *. set (B := (a * a + b * b) / d2) in *.
  set (dif := (a - b) * (a - b)). set (sum := (a + b) * (a + b)).
  assert (Ds : dif <= sum) by (unfold dif, sum; qnra).
  set (X := (1 + 1) * B - A * A - 1) in *.
  assert (HX : X * (d2 * d2) = (d2 - dif) * (sum - d2)).
  { unfold X, A, B, dif, sum. field. exact Nd. }
  assert (H2 : (1 + 1) <> 0) by discriminate.
  (* points in the frame *)
  assert (Fr : forall al be, norm2 (vsub [lx + (al * u - be * v); ly + (al * v + be * u)] [lx; ly]) = a * a
             /\ norm2 (vsub [lx + (al * u - be * v); ly + (al * v + be * u)] [rx; ry]) = b * b
             <-> al = (A + 1) / (1 + 1) /\ ((1 + 1) * be) * ((1 + 1) * be) = X).
  { intros al be. unfold norm2. cbn [vsub zip]. rewrite !dot_cons, !dot_nil_l.
    replace rx with (lx + u) by (unfold u; ring). replace ry with (ly + v) by (unfold v; ring).
    assert (E1 : (lx + (al * u - be * v) - lx) * (lx + (al * u - be * v) - lx) +
                 ((ly + (al * v + be * u) - ly) * (ly + (al * v + be * u) - ly) + 0) = (al * al + be * be) * d2)
      by (unfold d2; ring).
    assert (E2 : (lx + (al * u - be * v) - (lx + u)) * (lx + (al * u - be * v) - (lx + u)) +
                 ((ly + (al * v + be * u) - (ly + v)) * (ly + (al * v + be * u) - (ly + v)) + 0) = ((al - 1) * (al - 1) + be * be) * d2)
      by (unfold d2; ring).
    rewrite E1, E2. split.
    - intros [F1 F2]. assert (Ea : al = (A + 1) / (1 + 1)).
      { unfold A. rewrite <- F1, <- F2. field. auto. }
      split; [exact Ea|]. unfold X, A, B. rewrite <- F1, <- F2. field. exact Nd.
    - intros [Ea Eb].
      assert (Ebe : be * be = X / ((1 + 1) * (1 + 1))).
      { rewrite <- Eb. field. discriminate. }
      rewrite Ebe, Ea. unfold X, A, B. split; field; repeat split; auto; discriminate. }
  assert (Frame : forall q, length q = 2%nat -> exists al be, q = [lx + (al * u - be * v); ly + (al * v + be * u)]).
  { intros [|qx [|qy [|]]] Hq; try discriminate. destruct (circles_frame u v (qx - lx) (qy - ly) Nd) as (al & be & Ex & Ey).
    exists al, be. rewrite <- Ex, <- Ey. apply cons2_eq. split; ring. }
  destruct (qlt d2 dif || qlt sum d2) eqn:C1.
  { exists []. split; auto. intros q. split; [intros []|]. intros (Lq & F). exfalso.
    destruct (Frame q Lq) as (al & be & ->). apply Fr in F. destruct F as [_ F].
    assert (Sq := Qc_sq_nonneg ((1 + 1) * be)). rewrite F in Sq.
    assert (0 <= X * (d2 * d2)) by (apply Qc_mul_nonneg; auto using Qc_sq_nonneg). rewrite HX in H.
    apply orb_true_iff in C1. clear - C1 H Ds. destruct C1 as [C|C]; apply qlt_spec in C.
    - assert (0 < (dif - d2) * (sum - d2)) by (assert (0 < dif - d2) by qlra; assert (0 < sum - d2) by qlra; qnra). qlra.
    - assert (0 < (d2 - dif) * (d2 - sum)) by (assert (0 < d2 - dif) by qlra; assert (0 < d2 - sum) by qlra; qnra). qlra. }
  apply orb_false_iff in C1. destruct C1 as [C1 C2]. apply qlt_false in C1. apply qlt_false in C2.
  replace (is0 d2) with false by (symmetry; now apply is0_false).
  destruct (is0 (d2 - dif) || is0 (sum - d2)) eqn:T.
  - assert (X0 : X = 0).
    { assert (K : X * (d2 * d2) = 0).
      { rewrite HX. apply orb_true_iff in T. destruct T as [T|T]; apply is0_spec in T; rewrite T; ring. }
      destruct (Qcmult_integral _ _ K) as [|K2]; auto. destruct (Qcmult_integral _ _ K2); contradiction. }
    eexists. split; [reflexivity|]. intros q. cbn [vadd vscale zip map In]. split.
    + intros [<-|[]]. split; [reflexivity|].
      replace [lx + (A + 1) / (1 + 1) * u; ly + (A + 1) / (1 + 1) * v]
        with [lx + ((A + 1) / (1 + 1) * u - 0 * v); ly + ((A + 1) / (1 + 1) * v + 0 * u)] by (apply cons2_eq; split; ring).
      apply Fr. split; [reflexivity|]. rewrite X0. ring.
    + intros (Lq & F). destruct (Frame q Lq) as (al & be & ->). apply Fr in F. destruct F as [-> F].
      assert (be = 0).
      { rewrite X0 in F. destruct (Qcmult_integral _ _ F) as [G|G]; destruct (Qcmult_integral _ _ G); auto; contradiction. }
      subst be. left. apply cons2_eq. split; ring.
  - apply orb_false_iff in T. destruct T as [T1 T2]. apply is0_false in T1. apply is0_false in T2.
    assert (XP : 0 < X).
    { assert (0 < d2 - dif).
      { assert (0 <= d2 - dif) by qlra. destruct (Qcle_lt_or_eq _ _ H); auto. congruence. }
      assert (0 < sum - d2).
      { assert (0 <= sum - d2) by qlra. destruct (Qcle_lt_or_eq _ _ H0); auto. congruence. }
      assert (K : 0 < X * (d2 * d2)) by (rewrite HX; clear - H H0; qnra).
      clear - K Pd. destruct (Qclt_le_dec 0 X); auto. exfalso. assert (0 < d2 * d2) by qnra. qnra. }
    specialize (R XP).
    eexists. split; [reflexivity|]. intros q. fold X. set (of := root X / (1 + 1)).
    assert (Hof : ((1 + 1) * of) * ((1 + 1) * of) = X).
    { transitivity (root X * root X); [|exact R]. unfold of. field; auto. }
    cbn [vadd vsub vscale zip map In]. split.
    + intros [<-|[<-|[]]]; (split; [reflexivity|]).
      * replace [lx + (A + 1) / (1 + 1) * u - of * - v; ly + (A + 1) / (1 + 1) * v - of * u]
          with [lx + ((A + 1) / (1 + 1) * u - (- of) * v); ly + ((A + 1) / (1 + 1) * v + (- of) * u)] by (apply cons2_eq; split; ring).
        apply Fr. split; [reflexivity|]. rewrite <- Hof. ring.
      * replace [lx + (A + 1) / (1 + 1) * u + of * - v; ly + (A + 1) / (1 + 1) * v + of * u]
          with [lx + ((A + 1) / (1 + 1) * u - of * v); ly + ((A + 1) / (1 + 1) * v + of * u)] by (apply cons2_eq; split; ring).
        apply Fr. split; auto.
    + intros (Lq & F). destruct (Frame q Lq) as (al & be & ->). apply Fr in F. destruct F as [-> F].
      assert (K : (be - of) * (be + of) = 0).
      { assert (K2 : ((1 + 1) * (1 + 1)) * ((be - of) * (be + of)) = 0).
        { replace ((1 + 1) * (1 + 1) * ((be - of) * (be + of))) with ((1 + 1) * be * ((1 + 1) * be) - (1 + 1) * of * ((1 + 1) * of)) by ring.
          rewrite F, Hof. ring. }
        destruct (Qcmult_integral _ _ K2); [discriminate | auto]. }
      destruct (Qcmult_integral _ _ K) as [E|E].
      * right. left. assert (be = of) by now apply Qc_sub0. subst be. apply cons2_eq. split; ring.
      * left. assert (be = - of) by (apply Qc_sub0; rewrite <- E; ring). subst be. apply cons2_eq. split; ring.
Qed.

(** ** Inequalities *)
Lemma sq_le_inv (a b : Qc) : 0 <= b -> a * a <= b * b -> a <= b.
Proof. intros B H. destruct (Qclt_le_dec b a) as [K|K]; auto. exfalso. qnra. Qed.
Lemma cauchy a b : length a = length b -> dot a b * dot a b <= norm2 a * norm2 b.
Proof.
  intros E. destruct (degenerate b) eqn:D.
  - rewrite dot_comm, (degenerate_dot b a D). replace (0 * 0) with (Q2Qc 0) by ring.
    apply Qc_mul_nonneg; apply dot_nonneg.
  - assert (V := dot_pos b D). assert (V0 := dot_nonneg b).
    assert (H := dot_nonneg (vsub a (vscale (dot a b / dot b b) b))). fold (norm2 (vsub a (vscale (dot a b / dot b b) b))) in H.
    rewrite norm2_vsub in H by (rewrite len_scale; auto). unfold norm2 in *.
    rewrite (dot_comm a (vscale _ _)), !dot_vscale, (dot_comm b (vscale _ _)), dot_vscale, (dot_comm b a) in H.
    assert (K := Qc_mul_nonneg _ _ H V0).
    replace ((dot a a - (1 + 1) * (dot a b / dot b b * dot a b) + dot a b / dot b b * (dot a b / dot b b * dot b b)) * dot b b)
      with (dot a a * dot b b - dot a b * dot a b) in K by (field; exact V).
    qlra.
Qed.
Lemma sq_lt (x y : Qc) : 0 <= x -> x < y -> x * x < y * y.
Proof.
  intros X H. assert (Y : 0 < y) by qlra.
  assert (A : x * x <= y * x) by (apply Qcmult_le_compat_r; auto; qlra).
  assert (B : x * y < y * y) by (apply Qcmult_lt_compat_r; auto).
  rewrite (Qcmult_comm y x) in A. qlra.
Qed.
