(** Proofs about N-dimensional vector geometry: VecModel.v. *)
From Coq Require Import QArith Qcanon List Bool Lia.
From Verif Require Import Outcome VecModel.
Import ListNotations.
Local Open Scope Qc_scope.

(** ** Order of the rationals *)
Lemma Qc_sq_nonneg (x : Qc) : 0 <= x * x.
Proof.
  destruct (Qclt_le_dec x 0) as [H|H].
  - replace (x * x) with ((- x) * (- x)) by ring.
    assert (K : 0 <= - x) by (apply Qclt_le_weak in H; apply Qcopp_le_compat in H; exact H).
    replace 0 with (0 * (- x)) by ring. now apply Qcmult_le_compat_r.
  - replace 0 with (0 * x) by ring. now apply Qcmult_le_compat_r.
Qed.
Lemma Qc_add_nonneg (x y : Qc) : 0 <= x -> 0 <= y -> 0 <= x + y.
Proof. intros. replace 0 with (0 + 0) by ring. now apply Qcplus_le_compat. Qed.
Lemma Qc_mul_nonneg (x y : Qc) : 0 <= x -> 0 <= y -> 0 <= x * y.
Proof. intros. replace 0 with (0 * y) by ring. now apply Qcmult_le_compat_r. Qed.
Lemma Qc_sum0 (x y : Qc) : 0 <= x -> 0 <= y -> x + y = 0 -> x = 0 /\ y = 0.
Proof.
  intros X Y E. assert (Ex : x <= 0).
  { rewrite <- E. rewrite <- (Qcplus_0_r x) at 1. apply Qcplus_le_compat; auto. apply Qcle_refl. }
  assert (x = 0) by (now apply Qcle_antisym). subst. split; auto. rewrite Qcplus_0_l in E. exact E.
Qed.
Lemma Qc_sub0 (x y : Qc) : x - y = 0 -> x = y.
Proof. intros H. replace x with ((x - y) + y) by ring. rewrite H. ring. Qed.
Lemma Qc_le_sub (x y : Qc) : 0 <= y - x -> x <= y.
Proof. intros H. apply Qcle_minus_iff. exact H. Qed.

Lemma is0_spec x : is0 x = true <-> x = 0.
Proof. unfold is0. destruct (Qc_eq_dec x 0); split; congruence. Qed.
Lemma is0_false x : is0 x = false <-> x <> 0.
Proof. unfold is0. destruct (Qc_eq_dec x 0); split; congruence. Qed.
Lemma qlt_spec x y : qlt x y = true <-> x < y.
Proof.
  unfold qlt. destruct (Qclt_le_dec x y) as [H|H]; split; auto; try discriminate.
  intros K. exfalso. apply (Qcle_not_lt _ _ H K).
Qed.
Lemma qlt_false x y : qlt x y = false <-> y <= x.
Proof.
  unfold qlt. destruct (Qclt_le_dec x y) as [H|H]; split; auto; try discriminate.
  intros K. exfalso. apply (Qcle_not_lt _ _ K H).
Qed.

(** ** Vectors *)
Lemma dot_from_plus l : forall r a, dot_from a l r = a + dot l r.
Proof.
  unfold dot. induction l as [|x l IH]; intros r a; destruct r as [|y r]; cbn [dot_from]; try ring.
  rewrite (IH r (a + x * y)), (IH r (0 + x * y)). ring.
Qed.
Lemma dot_cons x l y r : dot (x :: l) (y :: r) = x * y + dot l r.
Proof. unfold dot at 1. cbn [dot_from]. rewrite dot_from_plus. ring. Qed.
Lemma dot_nil_l r : dot [] r = 0. Proof. reflexivity. Qed.
Lemma dot_nil_r l : dot l [] = 0. Proof. destruct l; reflexivity. Qed.
Lemma dot_comm l : forall r, dot l r = dot r l.
Proof. induction l as [|x l IH]; intros [|y r]; auto. rewrite !dot_cons, IH. ring. Qed.
Lemma len_zip f l : forall r, length l = length r -> length (zip f l r) = length r.
Proof. induction l as [|x l IH]; intros [|y r] H; try discriminate H; auto. cbn in *. f_equal. apply IH. lia. Qed.
Lemma len_scale k v : length (vscale k v) = length v. Proof. apply map_length. Qed.

Lemma dot_vadd a : forall b c, length a = length b -> dot (vadd a b) c = dot a c + dot b c.
Proof.
  induction a as [|x a IH]; intros [|y b] [|z c] E; try discriminate E; cbn [vadd zip]; rewrite ?dot_nil_l, ?dot_nil_r; try ring.
  rewrite !dot_cons. fold (vadd a b). rewrite IH by (cbn in E; lia). ring.
Qed.
Lemma dot_vsub a : forall b c, length a = length b -> dot (vsub a b) c = dot a c - dot b c.
Proof.
  induction a as [|x a IH]; intros [|y b] [|z c] E; try discriminate E; cbn [vsub zip]; rewrite ?dot_nil_l, ?dot_nil_r; try ring.
  rewrite !dot_cons. fold (vsub a b). rewrite IH by (cbn in E; lia). ring.
Qed.
Lemma dot_vscale k a : forall c, dot (vscale k a) c = k * dot a c.
Proof.
  induction a as [|x a IH]; intros [|z c]; cbn [vscale map]; rewrite ?dot_nil_l, ?dot_nil_r; try ring.
  rewrite !dot_cons. fold (vscale k a). rewrite IH. ring.
Qed.
Lemma dot_nonneg a : 0 <= dot a a.
Proof.
  induction a as [|x a IH]; [apply Qcle_refl|]. rewrite dot_cons. apply Qc_add_nonneg; auto using Qc_sq_nonneg.
Qed.
Lemma dot_zero a : dot a a = 0 -> forallb is0 a = true.
Proof.
  induction a as [|x a IH]; intros H; [reflexivity|]. rewrite dot_cons in H.
  apply Qc_sum0 in H; auto using Qc_sq_nonneg, dot_nonneg. destruct H as [H1 H2].
  cbn. rewrite IH by auto. assert (x = 0) by (destruct (Qcmult_integral _ _ H1); auto). subst.
  now rewrite (proj2 (is0_spec 0) eq_refl).
Qed.
Lemma dot_pos a : degenerate a = false -> dot a a <> 0.
Proof. unfold degenerate. intros H K. apply dot_zero in K. congruence. Qed.
Lemma degenerate_dot a c : degenerate a = true -> dot a c = 0.
Proof.
  revert c. induction a as [|x a IH]; intros [|z c] H; rewrite ?dot_nil_l, ?dot_nil_r; auto.
  cbn in H. apply andb_true_iff in H. destruct H as [H1 H2]. apply is0_spec in H1. subst.
  rewrite dot_cons, IH by auto. ring.
Qed.

Lemma vsub_vadd b : forall v, length b = length v -> vsub (vadd b v) b = v.
Proof.
  induction b as [|x b IH]; intros [|y v] H; try discriminate; auto. cbn. f_equal; [ring|].
  apply IH. cbn in H. lia.
Qed.
Lemma vadd_vsub b : forall v, length b = length v -> vadd b (vsub v b) = v.
Proof.
  induction b as [|x b IH]; intros [|y v] H; try discriminate; auto. cbn. f_equal; [ring|].
  apply IH. cbn in H. lia.
Qed.
Lemma vscale_vscale j k v : vscale j (vscale k v) = vscale (j * k) v.
Proof. unfold vscale. rewrite map_map. apply map_ext. intros. ring. Qed.
Lemma vscale_1 v : vscale 1 v = v.
Proof. unfold vscale. rewrite <- (map_id v) at 2. apply map_ext. intros. ring. Qed.
Lemma vsub_0 p : forall v, length p = length v -> vsub p (vscale 0 v) = p.
Proof.
  induction p as [|x p IH]; intros [|y v] H; try discriminate; auto. cbn. f_equal; [ring|].
  apply IH. cbn in H. lia.
Qed.
(** Two coordinatewise combinations of three vectors. *)
Lemma vec_ext (a : vec) : forall b, length a = length b ->
  (forall i, nth i a 0 = nth i b 0) -> a = b.
Proof.
  induction a as [|x a IH]; intros [|y b] L H; try discriminate; auto. f_equal; [apply (H O)|].
  apply IH; [cbn in L; lia|]. intros i. apply (H (S i)).
Qed.
Lemma nth_zip f a : forall b i, length a = length b -> (i < length a)%nat ->
  nth i (zip f a b) 0 = f (nth i a 0) (nth i b 0).
Proof.
  induction a as [|x a IH]; intros [|y b] i L H; cbn in *; try lia. destruct i; auto. apply IH; lia.
Qed.
Lemma nth_vscale k a i : nth i (vscale k a) 0 = k * nth i a 0.
Proof.
  unfold vscale. replace 0 with (k * 0) at 1 by ring. apply map_nth.
Qed.

Lemma vec_ext_lt (a b : vec) : length a = length b ->
  (forall i, (i < length a)%nat -> nth i a 0 = nth i b 0) -> a = b.
Proof.
  intros L H. apply vec_ext; auto. intros i. destruct (Nat.lt_ge_cases i (length a)); auto.
  rewrite !nth_overflow by lia. reflexivity.
Qed.
Lemma len_zip_n f l r n : length l = n -> length r = n -> length (zip f l r) = n.
Proof. intros <- H. now rewrite len_zip. Qed.
Lemma len_scale_n k v n : length v = n -> length (vscale k v) = n.
Proof. intros <-. apply len_scale. Qed.
Lemma len_vadd_n l r n : length l = n -> length r = n -> length (vadd l r) = n.
Proof. apply len_zip_n. Qed.
Lemma len_vsub_n l r n : length l = n -> length r = n -> length (vsub l r) = n.
Proof. apply len_zip_n. Qed.
Lemma len_at_n l t n : length (lbegin l) = n -> length (lvec l) = n -> length (at_ l t) = n.
Proof. intros. apply len_vadd_n; auto. now apply len_scale_n. Qed.
(** Goals [length v = n] and [length v = length w]. *)
Ltac len_one := repeat first [assumption | apply len_vadd_n | apply len_vsub_n | apply len_scale_n | apply len_at_n].
Ltac len n := first [len_one; fail | transitivity n; [|symmetry]; len_one].
Lemma nth_vadd n a b i : length a = n -> length b = n -> (i < n)%nat -> nth i (vadd a b) 0 = nth i a 0 + nth i b 0.
Proof. intros. apply nth_zip; lia. Qed.
Lemma nth_vsub n a b i : length a = n -> length b = n -> (i < n)%nat -> nth i (vsub a b) 0 = nth i a 0 - nth i b 0.
Proof. intros. apply nth_zip; lia. Qed.
Lemma nth_at n l t i : length (lbegin l) = n -> length (lvec l) = n -> (i < n)%nat ->
  nth i (at_ l t) 0 = nth i (lbegin l) 0 + t * nth i (lvec l) 0.
Proof. intros. unfold at_. rewrite (nth_vadd n) by (auto; now apply len_scale_n). now rewrite nth_vscale. Qed.
(** Equality of vectors of length [n] by coordinates. *)
Lemma vec_ext_n n (a b : vec) : length a = n -> length b = n ->
  (forall i, (i < n)%nat -> nth i a 0 = nth i b 0) -> a = b.
Proof. intros. apply vec_ext_lt; [congruence|]. intros. apply H1. lia. Qed.
Ltac coords n := apply (vec_ext_n n); [len_one | len_one |
  let i := fresh "i" in let Hi := fresh "Hi" in intros i Hi;
  repeat first [rewrite nth_vscale | rewrite (nth_at n) by (len_one || assumption)
         | rewrite (nth_vadd n) by (len_one || assumption) | rewrite (nth_vsub n) by (len_one || assumption)]].

Definition norm2 (a : vec) : Qc := dot a a.

Lemma norm2_vsub a b : length a = length b -> norm2 (vsub a b) = norm2 a - (1 + 1) * dot a b + norm2 b.
Proof.
  intros L. unfold norm2. rewrite dot_vsub by auto. rewrite (dot_comm a), (dot_comm b (vsub a b)).
  rewrite !dot_vsub by auto. rewrite (dot_comm b a). ring.
Qed.

Lemma norm2_vadd a b : length a = length b -> norm2 (vadd a b) = norm2 a + (1 + 1) * dot a b + norm2 b.
Proof.
  intros L. unfold norm2. rewrite dot_vadd by auto. rewrite (dot_comm a), (dot_comm b (vadd a b)).
  rewrite !dot_vadd by auto. rewrite (dot_comm b a). ring.
Qed.

(** ** Projection onto a line *)
Section OnLine.
  Context (l : line) (n : nat).
  Hypothesis Hb : length (lbegin l) = n.
  Hypothesis Hv : length (lvec l) = n.

  Lemma len_at t : length (at_ l t) = n.
  Proof. unfold at_, vadd. rewrite len_zip, len_scale; auto. rewrite len_scale. congruence. Qed.
  Lemma at_minus t : vsub (at_ l t) (lbegin l) = vscale t (lvec l).
  Proof. apply vsub_vadd. rewrite len_scale. congruence. Qed.

  Hypothesis Dv : degenerate (lvec l) = false.
  Let vv := dot (lvec l) (lvec l).
  Lemma vv_neq : vv <> 0. Proof. now apply dot_pos. Qed.

  Lemma project_at t : project_scalar (at_ l t) l = t.
  Proof.
    unfold project_scalar. rewrite at_minus, dot_vscale. fold vv. field. apply vv_neq.
  Qed.
  Lemma project_fixes t : project_line (at_ l t) l = at_ l t.
  Proof. unfold project_line. now rewrite project_at. Qed.

  Lemma residual_orth p : length p = n -> dot (vsub p (project_line p l)) (lvec l) = 0.
  Proof.
    intros Hp. assert (Lp : length p = length (project_line p l)).
    { unfold project_line. rewrite len_at. congruence. }
    rewrite dot_vsub by auto. unfold project_line, at_, vadd. fold (vadd (lbegin l) (vscale (project_scalar p l) (lvec l))).
    rewrite dot_vadd by (rewrite len_scale; congruence). rewrite dot_vscale.
    unfold project_scalar. rewrite dot_vsub by congruence. fold vv. field. apply vv_neq.
  Qed.

  (** Pythagoras *)
  Lemma dist_split p t : length p = n ->
    norm2 (vsub p (at_ l t))
    = norm2 (vsub p (project_line p l)) + (project_scalar p l - t) * (project_scalar p l - t) * vv.
  Proof.
    intros Hp. set (s := project_scalar p l).
    set (r := vsub p (project_line p l)).
    assert (Lr : length r = n) by (unfold r, project_line; len_one).
    assert (E : vsub p (at_ l t) = vadd r (vscale (s - t) (lvec l))).
    { unfold r, project_line. fold s. coords n. ring. }
    rewrite E. unfold norm2. rewrite dot_vadd by (rewrite len_scale; congruence).
    rewrite (dot_comm r (vadd _ _)), dot_vadd by (rewrite len_scale; congruence).
    rewrite !dot_vscale, (dot_comm (lvec l) (vadd _ _)), dot_vadd by (rewrite len_scale; congruence).
    rewrite dot_vscale, (dot_comm (lvec l) r).
    assert (O : dot r (lvec l) = 0) by now apply residual_orth.
    rewrite O. fold vv. ring.
  Qed.

  (** The scalar product with the direction measures the parameter. *)
  Lemma dot_begin p : dot (vsub p (lbegin l)) (lvec l) = project_scalar p l * vv.
  Proof. unfold project_scalar. fold vv. field. apply vv_neq. Qed.
  Lemma lend_at : lend l = at_ l 1.
  Proof. unfold lend, at_. now rewrite vscale_1. Qed.
  Lemma lbegin_at : lbegin l = at_ l 0.
  Proof.
    coords n. ring.
  Qed.
  Lemma dot_end p : length p = n -> dot (vsub p (lend l)) (lvec l) = (project_scalar p l - 1) * vv.
  Proof.
    intros Hp. rewrite lend_at. rewrite dot_vsub by (rewrite len_at; auto).
    unfold at_. rewrite dot_vadd by (rewrite len_scale; congruence). rewrite dot_vscale.
    fold vv. assert (K := dot_begin p). rewrite dot_vsub in K by congruence.
    replace (dot p (lvec l) - (dot (lbegin l) (lvec l) + 1 * vv))
      with (dot p (lvec l) - dot (lbegin l) (lvec l) - vv) by ring.
    rewrite K. ring.
  Qed.
  Lemma vv_pos : 0 < vv.
  Proof.
    destruct (Qcle_lt_or_eq _ _ (dot_nonneg (lvec l))) as [H|H]; auto. exfalso. apply vv_neq. now symmetry.
  Qed.
End OnLine.

(** Parameters of the points of a line of a kind, the ends included. *)
Definition on_kind (l : line) (t : Qc) : Prop := (kbegin l <> Free -> 0 <= t) /\ (kend l <> Free -> t <= 1).

Lemma sign_mul (x v : Qc) : 0 < v -> (0 <= x * v <-> 0 <= x) /\ (x * v <= 0 <-> x <= 0).
Proof.
  intros V. repeat split; intros H.
  - destruct (Qclt_le_dec x 0) as [K|K]; auto. exfalso.
    assert (M : x * v < 0 * v) by (apply Qcmult_lt_compat_r; auto).
    rewrite Qcmult_0_l in M. apply (Qcle_not_lt _ _ H M).
  - apply Qc_mul_nonneg; auto. now apply Qclt_le_weak.
  - destruct (Qclt_le_dec 0 x) as [K|K]; auto. exfalso.
    assert (M : 0 * v < x * v) by (apply Qcmult_lt_compat_r; auto).
    rewrite Qcmult_0_l in M. apply (Qcle_not_lt _ _ H M).
  - rewrite <- (Qcmult_0_l v). apply Qcmult_le_compat_r; auto. now apply Qclt_le_weak.
Qed.

Lemma sq_mono (a b v : Qc) : 0 <= v -> 0 <= a -> a <= b -> a * a * v <= b * b * v.
Proof.
  intros V A B. apply Qcmult_le_compat_r; auto.
  apply Qc_le_sub. replace (b * b - a * a) with ((b - a) * (b + a)) by ring.
  apply Qc_mul_nonneg.
  - now apply Qcle_minus_iff in B.
  - apply Qc_add_nonneg; auto. eapply Qcle_trans; eauto.
Qed.

(** ** Nearest point of a line, ray or segment *)
Lemma nearest_min l p n : length (lbegin l) = n -> length (lvec l) = n -> length p = n ->
  degenerate (lvec l) = false ->
  exists t, nearest_line p l = at_ l t /\ on_kind l t
    /\ forall t', on_kind l t' -> norm2 (vsub p (at_ l t)) <= norm2 (vsub p (at_ l t')).
Proof.
  intros Hb Hv Hp D.
  assert (VP := vv_pos l D). assert (V0 := Qclt_le_weak _ _ VP).
  set (s := project_scalar p l). set (vv := dot (lvec l) (lvec l)) in *.
  assert (Dist : forall t, norm2 (vsub p (at_ l t)) = norm2 (vsub p (project_line p l)) + (s - t) * (s - t) * vv)
    by (intros; now apply (dist_split l n)).
  assert (Cmp : forall t t', (s - t) * (s - t) * vv <= (s - t') * (s - t') * vv ->
     norm2 (vsub p (at_ l t)) <= norm2 (vsub p (at_ l t'))).
  { intros t t' H. rewrite !Dist. apply Qcplus_le_compat; auto. apply Qcle_refl. }
  unfold nearest_line. rewrite (dot_begin l D p), (dot_end l n Hb Hv D p Hp). fold s vv.
  destruct (negb (is_free (kbegin l)) && negb (qlt 0 (s * vv))) eqn:E1.
  - apply andb_true_iff in E1. destruct E1 as [F1 E1]. apply negb_true_iff, qlt_false in E1.
    apply (sign_mul s vv VP) in E1. exists 0. split; [now apply (lbegin_at l n)|].
    split; [split; intros; [apply Qcle_refl | discriminate]|].
    intros t' [T1 _]. apply Cmp.
    assert (0 <= t') by (apply T1; destruct (kbegin l); discriminate).
    replace ((s - 0) * (s - 0) * vv) with ((- s) * (- s) * vv) by ring.
    replace ((s - t') * (s - t') * vv) with ((t' - s) * (t' - s) * vv) by ring.
    apply sq_mono; auto.
    + apply Qcopp_le_compat in E1. exact E1.
    + replace (- s) with (0 - s) by ring. apply Qcplus_le_compat; auto. apply Qcle_refl.
  - destruct (negb (is_free (kend l)) && negb (qlt ((s - 1) * vv) 0)) eqn:E2.
    + apply andb_true_iff in E2. destruct E2 as [F2 E2]. apply negb_true_iff, qlt_false in E2.
      apply (sign_mul (s - 1) vv VP) in E2. exists 1. split; [apply lend_at|].
      split; [split; intros; [discriminate | apply Qcle_refl]|].
      intros t' [_ T2]. apply Cmp.
      assert (t' <= 1) by (apply T2; destruct (kend l); discriminate).
      apply sq_mono; auto. apply Qcplus_le_compat; [apply Qcle_refl|]. now apply Qcopp_le_compat.
    + exists s. split; [reflexivity|]. split.
      * split; intros F.
        -- destruct (Qclt_le_dec s 0) as [K|K]; auto. exfalso.
           assert (X : qlt 0 (s * vv) = false).
           { apply qlt_false. apply (sign_mul s vv VP). now apply Qclt_le_weak. }
           rewrite X in E1. destruct (kbegin l); try discriminate. now apply F.
        -- destruct (Qclt_le_dec 1 s) as [K|K]; auto. exfalso.
           assert (X : qlt ((s - 1) * vv) 0 = false).
           { apply qlt_false. apply (sign_mul (s - 1) vv VP). apply Qclt_le_weak in K.
             now apply Qcle_minus_iff in K. }
           rewrite X in E2. destruct (kend l); try discriminate. now apply F.
      * intros t' _. apply Cmp. replace ((s - s) * (s - s) * vv) with 0 by ring.
        apply Qc_mul_nonneg; auto. apply Qc_sq_nonneg.
Qed.

(** ** Planes *)
Section OnPlane.
  Context (pl : plane) (n : nat).
  Hypothesis Hn : length (normal pl) = n.
  Hypothesis Dn : degenerate (normal pl) = false.
  Let nn := dot (normal pl) (normal pl).
  Lemma nn_neq : nn <> 0. Proof. now apply dot_pos. Qed.

  Lemma len_project_plane p : length p = n -> length (project_plane p pl) = n.
  Proof. intros. unfold project_plane. len_one. Qed.

  Lemma project_plane_on p : length p = n -> plane_value pl (project_plane p pl) = 0.
  Proof.
    intros Hp. unfold plane_value at 1. rewrite dot_comm. unfold project_plane.
    rewrite dot_vsub by (rewrite len_scale; congruence). rewrite dot_vscale. fold nn.
    unfold plane_value. rewrite (dot_comm (normal pl) p). field. apply nn_neq.
  Qed.
  Lemma project_plane_fixes p : length p = n -> plane_value pl p = 0 -> project_plane p pl = p.
  Proof.
    intros Hp V. unfold project_plane. rewrite V. replace (0 / dot (normal pl) (normal pl)) with 0.
    - apply vsub_0. congruence.
    - field. apply nn_neq.
  Qed.
  (** Every point of the plane is at least as far from [p] as the projection. *)
  Lemma project_plane_min p q : length p = n -> length q = n -> plane_value pl q = 0 ->
    norm2 (vsub p (project_plane p pl)) <= norm2 (vsub p q).
  Proof.
    intros Hp Hq V. set (k := plane_value pl p / dot (normal pl) (normal pl)).
    assert (E1 : vsub p (project_plane p pl) = vscale k (normal pl)).
    { unfold project_plane. fold k. coords n. ring. }
    set (w := vsub (project_plane p pl) q).
    assert (Lw : length w = n) by (unfold w; len_one; now apply len_project_plane).
    assert (E2 : vsub p q = vadd (vscale k (normal pl)) w).
    { unfold w, project_plane. fold k. coords n. ring. }
    assert (O : dot (normal pl) w = 0).
    { unfold w. rewrite dot_comm, dot_vsub by (rewrite len_project_plane; congruence).
      assert (A := project_plane_on p Hp). unfold plane_value in A, V.
      rewrite (dot_comm (project_plane p pl)), (dot_comm q).
      replace (dot (normal pl) (project_plane p pl) - dot (normal pl) q)
        with ((dot (normal pl) (project_plane p pl) - pd pl) - (dot (normal pl) q - pd pl)) by ring.
      rewrite A, V. ring. }
    rewrite E1, E2, norm2_vadd by (rewrite len_scale; congruence).
    rewrite dot_vscale, O. apply Qc_le_sub.
    match goal with |- 0 <= ?x => replace x with (dot w w) by (unfold norm2; ring) end. apply dot_nonneg.
  Qed.
End OnPlane.

(** ** Reflections *)
(** [reflect p = 2 (m + P (p - m)) - p] for a self-adjoint idempotent [P]: here as the
    two facts needed for each mirror. *)
Lemma reflect_line_len l p n : length (lbegin l) = n -> length (lvec l) = n -> length p = n ->
  length (reflect_line p l) = n.
Proof. intros. unfold reflect_line, project_line. len_one. Qed.

Lemma reflect_line_scalar l p n : length (lbegin l) = n -> length (lvec l) = n -> length p = n ->
  degenerate (lvec l) = false -> project_scalar (reflect_line p l) l = project_scalar p l.
Proof.
  intros Hb Hv Hp D. assert (K := residual_orth l n Hb Hv D p Hp).
  assert (V := vv_neq l D).
  unfold project_scalar at 1. unfold reflect_line, project_line in *.
  rewrite dot_vsub by (transitivity n; [len_one | symmetry; len_one]).
  rewrite dot_vsub by (transitivity n; [len_one | symmetry; len_one]).
  rewrite dot_vscale. rewrite dot_vsub in K by (transitivity n; [len_one | symmetry; len_one]).
  set (s := project_scalar p l) in *.
  assert (A : dot (at_ l s) (lvec l) = dot (lbegin l) (lvec l) + s * dot (lvec l) (lvec l)).
  { unfold at_. rewrite dot_vadd by (rewrite len_scale; congruence). now rewrite dot_vscale. }
  rewrite A in *. replace (dot p (lvec l)) with (dot (lbegin l) (lvec l) + s * dot (lvec l) (lvec l)).
  - field. exact V.
  - symmetry. rewrite <- (Qcplus_0_r (dot (lbegin l) (lvec l) + _)), <- K. ring.
Qed.

Lemma reflect_line_invol l p n : length (lbegin l) = n -> length (lvec l) = n -> length p = n ->
  degenerate (lvec l) = false -> reflect_line (reflect_line p l) l = p.
Proof.
  intros Hb Hv Hp D. unfold reflect_line at 1, project_line.
  rewrite (reflect_line_scalar l p n) by auto.
  unfold reflect_line, project_line. coords n. ring.
Qed.

Lemma reflect_line_isometry l p q n : length (lbegin l) = n -> length (lvec l) = n -> length p = n -> length q = n ->
  degenerate (lvec l) = false ->
  norm2 (vsub (reflect_line p l) (reflect_line q l)) = norm2 (vsub p q).
Proof.
  intros Hb Hv Hp Hq D. set (w := vsub p q). set (v := lvec l) in *.
  assert (V := vv_neq l D). fold v in V.
  set (s := project_scalar p l - project_scalar q l).
  assert (E : vsub (reflect_line p l) (reflect_line q l) = vsub (vscale ((1 + 1) * s) v) w).
  { unfold reflect_line, project_line, w, s, v. coords n. fold v. ring. }
  assert (Es : s * dot v v = dot w v).
  { unfold s, project_scalar, w. fold v. rewrite !dot_vsub by congruence. field. exact V. }
  rewrite E, norm2_vsub by (unfold w; transitivity n; [len_one | symmetry; len_one]).
  unfold norm2 at 1. rewrite !dot_vscale, (dot_comm v (vscale _ _)), dot_vscale, (dot_comm v w), <- Es. ring.
Qed.

Lemma reflect_plane_value pl p n : length (normal pl) = n -> length p = n -> degenerate (normal pl) = false ->
  plane_value pl (reflect_plane p pl) = - plane_value pl p.
Proof.
  intros Hn Hp D. assert (A := project_plane_on pl n Hn D p Hp).
  unfold reflect_plane. unfold plane_value in *. rewrite (dot_comm (normal pl) (vsub _ _)).
  rewrite dot_vsub by (transitivity n; [apply len_scale_n, len_project_plane; auto | auto]).
  rewrite dot_vscale, (dot_comm (project_plane p pl)), (dot_comm p).
  replace (dot (normal pl) (project_plane p pl)) with (pd pl); [ring|].
  rewrite <- (Qcplus_0_r (pd pl)), <- A. ring.
Qed.
Lemma reflect_plane_form pl p n : length (normal pl) = n -> length p = n ->
  reflect_plane p pl = vsub p (vscale ((1 + 1) * (plane_value pl p / dot (normal pl) (normal pl))) (normal pl)).
Proof. intros. unfold reflect_plane, project_plane. coords n. ring. Qed.
Lemma reflect_plane_invol pl p n : length (normal pl) = n -> length p = n -> degenerate (normal pl) = false ->
  reflect_plane (reflect_plane p pl) pl = p.
Proof.
  intros Hn Hp D. rewrite (reflect_plane_form pl (reflect_plane p pl) n); auto.
  - rewrite (reflect_plane_value pl p n) by auto. rewrite (reflect_plane_form pl p n) by auto.
    assert (N := nn_neq pl D). coords n. field. exact N.
  - rewrite (reflect_plane_form pl p n) by auto. len_one.
Qed.
Lemma reflect_plane_isometry pl p q n : length (normal pl) = n -> length p = n -> length q = n ->
  degenerate (normal pl) = false ->
  norm2 (vsub (reflect_plane p pl) (reflect_plane q pl)) = norm2 (vsub p q).
Proof.
  intros Hn Hp Hq D. rewrite (reflect_plane_form pl p n), (reflect_plane_form pl q n) by auto.
  assert (N := nn_neq pl D).
  set (v := normal pl) in *. set (w := vsub p q).
  set (s := plane_value pl p / dot v v - plane_value pl q / dot v v).
  match goal with |- norm2 ?x = _ => assert (E : x = vsub w (vscale ((1 + 1) * s) v)) end.
  { unfold w, s. coords n. ring. }
  assert (Es : s * dot v v = dot w v).
  { unfold s, plane_value, w. fold v. rewrite dot_vsub by congruence.
    rewrite (dot_comm p), (dot_comm q). field. exact N. }
  rewrite E, norm2_vsub by (unfold w; transitivity n; [len_one | symmetry; len_one]).
  unfold norm2 at 2. rewrite !dot_vscale, (dot_comm v (vscale _ _)), (dot_comm w (vscale _ _)), !dot_vscale, (dot_comm v w), <- Es. ring.
Qed.

(** ** Inversion *)
Lemma degenerate_scale k v : k <> 0 -> degenerate (vscale k v) = degenerate v.
Proof.
  intros K. unfold degenerate, vscale. induction v as [|x v IH]; [reflexivity|]. cbn. rewrite IH. f_equal.
  unfold is0. destruct (Qc_eq_dec x 0) as [->|N]; destruct (Qc_eq_dec _ 0) as [E|E]; auto.
  - exfalso. apply E. ring.
  - exfalso. destruct (Qcmult_integral _ _ E); auto.
Qed.

(** ** Collinear vectors *)
Lemma coll_rest_spec li ri : li <> 0 -> forall l r, length l = length r ->
  coll_rest li ri l r = true <-> r = vscale (ri / li) l.
Proof.
  intros N l. induction l as [|x l IH]; intros [|y r] E; try discriminate; cbn [coll_rest vscale map].
  - tauto.
  - rewrite andb_true_iff, IH by (cbn in E; lia). unfold collinear2. rewrite is0_spec.
    fold (vscale (ri / li) l). split.
    + intros [H ->]. f_equal. assert (K : li * y = ri * x).
      { rewrite <- (Qcplus_0_r (li * y)), <- H. ring. }
      replace y with (li * y / li) by (field; auto). rewrite K. field. auto.
    + intros H. inversion H; subst. split; auto. field. auto.
Qed.
Lemma collinear_n_spec : forall l r, length l = length r ->
  collinear_n l r = true <-> exists k, r = vscale k l.
Proof.
  induction l as [|x l IH]; intros [|y r] E; try discriminate; cbn [collinear_n].
  - split; auto. now exists 0.
  - destruct (is0 x) eqn:X.
    + apply is0_spec in X. subst x. destruct (is0 y) eqn:Y.
      * apply is0_spec in Y. subst y. rewrite IH by (cbn in E; lia). split.
        -- intros (k & ->). exists k. cbn. f_equal. ring.
        -- intros (k & H). exists k. now inversion H.
      * apply is0_false in Y. split; [discriminate|].
        intros (k & H). exfalso. injection H as H1 _. apply Y. rewrite H1. ring.
    + apply is0_false in X. rewrite coll_rest_spec by (auto; cbn in E; lia). split.
      * intros ->. exists (y / x). cbn. f_equal. field. auto.
      * intros (k & H). inversion H; subst. unfold vscale. apply map_ext. intros. field. auto.
Qed.

(** ** Two planes *)
Lemma first_nonzero_spec l : forall r, degenerate l = false -> length l = length r ->
  exists x y, first_nonzero l r = Some (x, y) /\ x <> 0 /\ forall k, r = vscale k l -> y = k * x.
Proof.
  induction l as [|a l IH]; intros [|b r] D E; try discriminate. cbn [first_nonzero].
  unfold degenerate in D. cbn [forallb] in D. destruct (is0 a) eqn:A.
  - destruct (IH r D ltac:(cbn in E; lia)) as (x & y & F & N & K). exists x, y. split; auto. split; auto.
    intros k H. apply K. now inversion H.
  - exists a, b. split; auto. split; [now apply is0_false|]. intros k H. now inversion H.
Qed.

(** Vectors that are not multiples of each other span a plane: the Gram determinant is not zero. *)
Lemma gram a b : length a = length b -> degenerate a = false ->
  dot a a * dot b b - dot a b * dot a b = 0 -> exists k, b = vscale k a.
Proof.
  intros L D G. assert (N := dot_pos a D).
  set (k := dot a b / dot a a). set (w := vsub b (vscale k a)).
  assert (W : dot w w = 0).
  { unfold w. fold (norm2 (vsub b (vscale k a))). rewrite norm2_vsub by (rewrite len_scale; congruence).
    unfold norm2. rewrite !(dot_comm _ (vscale k a)), !dot_vscale, (dot_comm a (vscale k a)), dot_vscale.
    assert (B : dot b b = dot a b * dot a b / dot a a).
    { replace (dot b b) with (dot a a * dot b b / dot a a) by (field; auto).
      now rewrite (Qc_sub0 _ _ G). }
    rewrite B. unfold k. field. auto. }
  apply dot_zero in W. exists k.
  apply (vec_ext_n (length a)); [congruence | apply len_scale|]. intros i Hi.
  assert (K : nth i w 0 = 0).
  { rewrite forallb_forall in W. apply is0_spec, W, nth_In. unfold w, vsub. rewrite len_zip; rewrite ?len_scale; lia. }
  unfold w in K. rewrite (nth_vsub (length a)) in K by (auto; now rewrite ?len_scale).
  now apply Qc_sub0.
Qed.

Lemma crosses_planes_spec l r n : length (normal l) = n -> length (normal r) = n ->
  degenerate (normal l) = false -> degenerate (normal r) = false ->
  exists b, crosses_planes l r = Ok b
    /\ (b = true <-> exists p, length p = n /\ plane_value l p = 0 /\ plane_value r p = 0).
Proof.
  intros Hl Hr Dl Dr. unfold crosses_planes. rewrite Dl, Dr. cbn [orb].
  set (a := normal l) in *. set (b := normal r) in *.
  destruct (collinear_n a b) eqn:C; cbn [negb].
  - apply collinear_n_spec in C; [|congruence]. destruct C as (k & C).
    destruct (first_nonzero_spec a b Dl ltac:(congruence)) as (x & y & F & N & K). rewrite F.
    specialize (K k C). subst y. eexists. split; [reflexivity|].
    unfold collinear2. rewrite is0_spec. unfold plane_value. fold a b.
    assert (Kn : k <> 0).
    { intros ->. assert (degenerate b = true); [|congruence]. rewrite C. unfold degenerate, vscale.
      rewrite forallb_forall. intros z Hz. apply in_map_iff in Hz. destruct Hz as (t & <- & _).
      apply is0_spec. ring. }
    split.
    + intros H. assert (E : pd r = k * pd l).
      { assert (Z : x * (k * pd l - pd r) = 0) by (rewrite <- H; ring).
        destruct (Qcmult_integral _ _ Z) as [Z'|Z']; [contradiction|].
        symmetry. now apply Qc_sub0. }
      exists (vscale (pd l / dot a a) a). split; [now apply len_scale_n|].
      assert (Na := dot_pos a Dl).
      rewrite C, E, dot_vscale, (dot_comm a (vscale _ a)), dot_vscale. split; field; auto.
    + intros (p & _ & P1 & P2). rewrite C, dot_vscale in P2.
      assert (E1 : dot a p = pd l) by now apply Qc_sub0.
      rewrite E1 in P2. replace (k * x * pd l - pd r * x) with (x * (k * pd l - pd r)) by ring.
      rewrite P2. ring.
  - exists true. split; [reflexivity|]. split; [intros _ | auto].
    set (g := dot a a * dot b b - dot a b * dot a b).
    assert (G : g <> 0).
    { intros G. apply gram in G; [|congruence | auto].
      apply (collinear_n_spec a b ltac:(congruence)) in G. congruence. }
    set (al := (pd l * dot b b - pd r * dot a b) / g). set (be := (pd r * dot a a - pd l * dot a b) / g).
    exists (vadd (vscale al a) (vscale be b)). split; [len_one|].
    assert (X : forall v, dot v (vadd (vscale al a) (vscale be b)) = al * dot a v + be * dot b v).
    { intros v. rewrite dot_comm, dot_vadd by (rewrite !len_scale; congruence). now rewrite !dot_vscale. }
    unfold plane_value. fold a b. rewrite !X, (dot_comm b a). unfold al, be, g in *.
    split; field; exact G.
Qed.

(** A zero vector is collinear with nothing but the zero vector when it comes first. *)
Lemma perp_orth a b c d : dot (perpendicular [a; b]) [c; d] = a * d - b * c.
Proof. unfold perpendicular. rewrite !dot_cons, dot_nil_l. ring. Qed.

(** ** Distances *)
Lemma lagrange2 p v : length p = 2%nat -> length v = 2%nat ->
  area2 p v * area2 p v + dot p v * dot p v = dot p p * dot v v.
Proof.
  intros Hp Hv. destruct p as [|a [|b [|]]]; try discriminate. destruct v as [|c [|d [|]]]; try discriminate.
  unfold area2. rewrite !dot_cons, !dot_nil_l. ring.
Qed.

Lemma distance2_nearest l p : length (lbegin l) = 2%nat -> length (lvec l) = 2%nat -> length p = 2%nat ->
  degenerate (lvec l) = false ->
  distance2_line p l = norm2 (vsub p (nearest_line p l)).
Proof.
  intros Hb Hv Hp D. assert (V := vv_neq l D). assert (VP := vv_pos l D).
  unfold distance2_line, nearest_line.
  rewrite (dot_begin l D p), (dot_end l 2 Hb Hv D p Hp).
  set (s := project_scalar p l). set (vv := dot (lvec l) (lvec l)) in *.
  assert (Dist : forall t, norm2 (vsub p (at_ l t)) = norm2 (vsub p (project_line p l)) + (s - t) * (s - t) * vv)
    by (intros; now apply (dist_split l 2)).
  assert (Ar : area2 (vsub p (lbegin l)) (lvec l) * area2 (vsub p (lbegin l)) (lvec l) / vv
               = norm2 (vsub p (project_line p l))).
  { assert (La := lagrange2 (vsub p (lbegin l)) (lvec l) ltac:(len_one) Hv).
    rewrite (dot_begin l D p) in La. fold s vv in La.
    fold (norm2 (vsub p (lbegin l))) in La. rewrite (lbegin_at l 2 Hb Hv) in La at 3.
    rewrite Dist in La.
    replace (area2 (vsub p (lbegin l)) (lvec l) * area2 (vsub p (lbegin l)) (lvec l))
      with (norm2 (vsub p (project_line p l)) * vv).
    - field. exact V.
    - symmetry. apply Qc_sub0. rewrite <- (Qcplus_opp_r ((norm2 (vsub p (project_line p l)) + (s - 0) * (s - 0) * vv) * vv)).
      rewrite <- La at 1. ring. }
  destruct (is_free (kbegin l)) eqn:F1; cbn [negb andb].
  - destruct (is_free (kend l)) eqn:F2; cbn [negb andb].
    + exact Ar.
    + destruct (qlt 0 ((s - 1) * vv)) eqn:E1.
      * apply qlt_spec in E1. replace (qlt ((s - 1) * vv) 0) with false by (symmetry; apply qlt_false; now apply Qclt_le_weak).
        reflexivity.
      * apply qlt_false in E1. destruct (qlt ((s - 1) * vv) 0) eqn:E2; [exact Ar|]. cbn [negb].
        apply qlt_false in E2. assert (Z : (s - 1) * vv = 0) by now apply Qcle_antisym.
        destruct (Qcmult_integral _ _ Z) as [Z'|]; [|contradiction].
        rewrite Ar, lend_at, Dist, Z'. ring.
  - destruct (qlt (s * vv) 0) eqn:E0.
    + apply qlt_spec in E0. replace (qlt 0 (s * vv)) with false by (symmetry; apply qlt_false; now apply Qclt_le_weak).
      reflexivity.
    + apply qlt_false in E0. destruct (qlt 0 (s * vv)) eqn:E1; cbn [negb].
      * destruct (is_free (kend l)) eqn:F2; cbn [negb andb]; [exact Ar|].
        destruct (qlt 0 ((s - 1) * vv)) eqn:E2.
        -- apply qlt_spec in E2. replace (qlt ((s - 1) * vv) 0) with false by (symmetry; apply qlt_false; now apply Qclt_le_weak).
           reflexivity.
        -- apply qlt_false in E2. destruct (qlt ((s - 1) * vv) 0) eqn:E3; [exact Ar|]. cbn [negb].
           apply qlt_false in E3. assert (Z : (s - 1) * vv = 0) by now apply Qcle_antisym.
           destruct (Qcmult_integral _ _ Z) as [Z'|]; [|contradiction].
           rewrite Ar, lend_at, Dist, Z'. ring.
      * apply qlt_false in E1. assert (Z : s * vv = 0) by now apply Qcle_antisym.
        assert (S0 : s = 0) by (destruct (Qcmult_integral _ _ Z) as [Z'|]; [exact Z'|contradiction]).
        assert (X : qlt 0 ((s - 1) * vv) = false).
        { apply qlt_false. apply (sign_mul (s - 1) vv VP). rewrite S0. discriminate. }
        rewrite X, andb_false_r, Ar, (lbegin_at l 2 Hb Hv), Dist, S0. ring.
Qed.
