(** Proofs about the hull of arbitrary floating point points: FPolyModel.v. *)
From Coq Require Import ZArith QArith List Bool Lia Lqa.
From Verif Require Import Outcome FGeoModel FGeoProofs FPolyModel.
From Verif Require GeoModel.
Import ListNotations.

(** No coordinate is NaN. *)
Definition numeric (p : fpt) : Prop := fx p <> NaN /\ fy p <> NaN.
(** The order of the numbers, and the lexicographical order of points. *)
Definition num_lt (a b : num) : Prop :=
  match a, b with
  | Fin x, Fin y => (x < y)%Q
  | Inf true, Inf false | Inf true, Fin _ | Fin _, Inf false => True
  | _, _ => False
  end.
Definition before (p q : fpt) : Prop :=
  num_lt (fx p) (fx q) \/ (~ num_lt (fx q) (fx p) /\ num_lt (fy p) (fy q)).

Lemma nless_spec a b : nless a b = true <-> num_lt a b.
Proof.
  destruct a as [x|[]|], b as [y|[]|]; cbn; try (split; easy).
  rewrite Qlt_alt. destruct (x ?= y)%Q; split; easy.
Qed.
Lemma nless_trans a b c : b <> NaN -> nless a b = false -> nless b c = false -> nless a c = false.
Proof.
  rewrite <- !not_true_iff_false, !nless_spec. intros N A B C.
  destruct a as [x|[]|], b as [y|[]|], c as [z|[]|]; cbn in *; try tauto; lra.
Qed.
Lemma nless_asym a b : nless a b = true -> nless b a = false.
Proof.
  intros A. apply not_true_iff_false. intros B. apply nless_spec in A, B.
  destruct a as [x|[]|], b as [y|[]|]; cbn in *; try tauto; lra.
Qed.
Lemma fpless_alt l r :
  fpless l r = nless (fx l) (fx r) || (negb (nless (fx r) (fx l)) && nless (fy l) (fy r)).
Proof.
  unfold fpless, ncompare. pose proof (nless_asym (fx l) (fx r)) as A. pose proof (nless_asym (fy l) (fy r)) as B.
  destruct (nless (fx l) (fx r)); [rewrite A by reflexivity; reflexivity|].
  destruct (nless (fx r) (fx l)); [reflexivity|].
  destruct (nless (fy l) (fy r)); [rewrite B by reflexivity; reflexivity|].
  now destruct (nless (fy r) (fy l)).
Qed.
Lemma fpless_spec p q : fpless p q = true <-> before p q.
Proof.
  rewrite fpless_alt, orb_true_iff, andb_true_iff, negb_true_iff, <- not_true_iff_false, !nless_spec. reflexivity.
Qed.
Lemma fpless_false l r :
  fpless l r = false <-> nless (fx l) (fx r) = false /\ (nless (fx r) (fx l) = true \/ nless (fy l) (fy r) = false).
Proof.
  rewrite fpless_alt. destruct (nless (fx l) (fx r)), (nless (fx r) (fx l)), (nless (fy l) (fy r)); cbn; intuition discriminate.
Qed.
Lemma fpless_trans a b c : numeric a -> numeric b -> numeric c ->
  fpless a b = false -> fpless b c = false -> fpless a c = false.
Proof.
  intros (NA & NA') (NB & NB') (NC & NC'). rewrite !fpless_false. intros [A1 A2] [B1 B2].
  split; [now apply (nless_trans _ (fx b))|].
  destruct (nless (fx c) (fx a)) eqn:E; [now left|right].
  destruct A2 as [A2|A2]; [rewrite (nless_trans _ (fx c) _ NC B1 E) in A2; discriminate|].
  destruct B2 as [B2|B2]; [rewrite (nless_trans _ (fx a) _ NA E A1) in B2; discriminate|].
  now apply (nless_trans _ (fy b)).
Qed.
Lemma fpless_asym a b : fpless a b = true -> fpless b a = false.
Proof.
  intros A. apply fpless_false. rewrite fpless_alt in A. apply orb_true_iff in A as [A|A].
  - split; [now apply nless_asym | now left].
  - apply andb_true_iff in A as [A B]. apply negb_true_iff in A. split; [exact A | right; now apply nless_asym].
Qed.

(** ** Extreme points and sorting *)
Lemma fmin_spec l : forall p, numeric p -> Forall numeric l ->
  In (fmin_point p l) (p :: l) /\ forall q, In q (p :: l) -> fpless q (fmin_point p l) = false.
Proof.
  induction l as [|q l IH]; intros p Np Nl; cbn [fmin_point].
  - split; [now left|]. intros q [<-|[]]. destruct (fpless p p) eqn:E; [|reflexivity]. now rewrite (fpless_asym _ _ E) in E.
  - inversion Nl as [|? ? Nq Nl']; subst.
    destruct (IH (if fpless q p then q else p)) as [I M]; [now destruct (fpless q p) | assumption|].
    assert (Nm : numeric (fmin_point (if fpless q p then q else p) l)).
    { destruct I as [<-|I]; [now destruct (fpless q p)|]. rewrite Forall_forall in Nl'. now apply Nl'. }
    split.
    + destruct I as [I|I]; [|right; now right]. rewrite <- I. destruct (fpless q p); [right; now left | now left].
    + specialize (M _ (or_introl eq_refl)) as M0. intros x [<-|[<-|X]]; [| |apply M; now right].
      * destruct (fpless q p) eqn:E; [|exact M0]. apply (fpless_trans _ q); auto. now apply fpless_asym.
      * destruct (fpless q p) eqn:E; [exact M0|]. now apply (fpless_trans _ p).
Qed.
Lemma fmax_spec l : forall p, numeric p -> Forall numeric l ->
  In (fmax_point p l) (p :: l) /\ forall q, In q (p :: l) -> fpless (fmax_point p l) q = false.
Proof.
  induction l as [|q l IH]; intros p Np Nl; cbn [fmax_point].
  - split; [now left|]. intros q [<-|[]]. destruct (fpless p p) eqn:E; [|reflexivity]. now rewrite (fpless_asym _ _ E) in E.
  - inversion Nl as [|? ? Nq Nl']; subst.
    destruct (IH (if fpless q p then p else q)) as [I M]; [now destruct (fpless q p) | assumption|].
    assert (Nm : numeric (fmax_point (if fpless q p then p else q) l)).
    { destruct I as [<-|I]; [now destruct (fpless q p)|]. rewrite Forall_forall in Nl'. now apply Nl'. }
    split.
    + destruct I as [I|I]; [|right; now right]. rewrite <- I. destruct (fpless q p); [now left | right; now left].
    + specialize (M _ (or_introl eq_refl)) as M0. intros x [<-|[<-|X]]; [| |apply M; now right].
      * destruct (fpless q p) eqn:E; [exact M0|]. now apply (fpless_trans _ q).
      * destruct (fpless q p) eqn:E; [|exact M0]. apply (fpless_trans _ p); auto. now apply fpless_asym.
Qed.
Lemma finsert_In lt x l y : In y (finsert lt x l) <-> y = x \/ In y l.
Proof.
  induction l as [|z l IH]; cbn [finsert]; [cbn; intuition|].
  destruct (lt z x); cbn; [rewrite IH|]; intuition.
Qed.
Lemma fsort_In lt l y : In y (fsort lt l) <-> In y l.
Proof.
  induction l as [|x l IH]; [reflexivity|]. cbn [fsort fold_right]. fold (fsort lt l). rewrite finsert_In, IH. cbn. intuition.
Qed.
Lemma finsert_length lt x l : length (finsert lt x l) = S (length l).
Proof. induction l as [|y l IH]; [reflexivity|]. cbn [finsert]. destruct (lt y x); cbn; [now rewrite IH | reflexivity]. Qed.
Lemma fsort_length lt l : length (fsort lt l) = length l.
Proof. induction l as [|x l IH]; [reflexivity|]. cbn [fsort fold_right]. fold (fsort lt l). rewrite finsert_length, IH. reflexivity. Qed.
Lemma fsort_head l x r : Forall numeric l -> fsort fpless l = x :: r -> forall y, In y l -> fpless y x = false.
Proof.
  revert x r. induction l as [|z l IH]; intros x r N E; [discriminate|].
  inversion N as [|? ? Nz Nl]; subst. cbn [fsort fold_right] in E. fold (fsort fpless l) in E.
  assert (Self : forall p, fpless p p = false).
  { intros p. destruct (fpless p p) eqn:F; [|reflexivity]. now rewrite (fpless_asym _ _ F) in F. }
  destruct (fsort fpless l) as [|y s] eqn:S.
  - cbn in E. injection E as <- <-. intros y [<-|Y]; [apply Self|].
    apply (fsort_In fpless) in Y. rewrite S in Y. destruct Y.
  - specialize (IH y s Nl eq_refl). assert (Ny : numeric y).
    { rewrite Forall_forall in Nl. apply Nl. apply (fsort_In fpless). rewrite S. now left. }
    cbn [finsert] in E. destruct (fpless y z) eqn:L; injection E as <- <-.
    + intros w [<-|W]; [now apply fpless_asym | now apply IH].
    + intros w [<-|W]; [apply Self|]. apply (fpless_trans _ y); auto. rewrite Forall_forall in Nl. now apply Nl.
Qed.

(** ** Orientations of the extreme points *)
Section Zero.
  Variable f : format.
  Definition null (n : num) : Prop := n = NaN \/ exists q, n = Fin q /\ (q == 0)%Q.
  Lemma to_num_null q : (q == 0)%Q -> null (to_num f q).
  Proof.
    intros E. right. exists 0%Q. split; [|reflexivity].
    assert (R : round f q = 0%Q) by (unfold round; destruct (Qcompare_spec q 0); [reflexivity | lra | lra]).
    unfold to_num. rewrite R. pose proof (two_pos (emax f)).
    destruct (Qlt_le_dec 0 (2 ^ emax f)); [|lra]. destruct (Qlt_le_dec (- 2 ^ emax f) 0); [reflexivity | lra].
  Qed.
  Lemma fsub_null a b : null a -> null b -> null (fsub f a b).
  Proof.
    intros [->|(x & -> & X)]; [left; reflexivity|]. intros [->|(y & -> & Y)]; [left; reflexivity|].
    unfold fsub. cbn [neg_num fadd]. apply to_num_null. rewrite X, Y. ring.
  Qed.
  Lemma fmul_null a b : null b -> null (fmul f a b).
  Proof.
    intros [->|(y & -> & Y)]; [left; now destruct a|]. destruct a as [x|n|]; cbn [fmul].
    - apply to_num_null. rewrite Y. ring.
    - left. destruct (Qcompare_spec y 0); [reflexivity | lra | lra].
    - now left.
  Qed.
  Lemma fmul_comm a b : null (fsub f (fmul f a b) (fmul f b a)).
  Proof.
    assert (K : forall n, null (fsub f n n)).
    { intros [x|[]|]; try (left; reflexivity). unfold fsub. cbn [neg_num fadd]. apply to_num_null. ring. }
    assert (C : forall x y, fmul f (Fin x) (Fin y) = fmul f (Fin y) (Fin x)).
    { intros. cbn [fmul]. f_equal. destruct x, y. unfold Qmult. cbn. now rewrite Z.mul_comm, Pos.mul_comm. }
    destruct a as [x|n|], b as [y|m|]; try (rewrite C); try apply K.
    cbn [fmul]. rewrite xorb_comm. apply K.
  Qed.
  Lemma null_sgn n : null n -> fsgn n = 0%Z.
  Proof. intros [->|(q & -> & E)]; [reflexivity|]. cbn. destruct (Qcompare_spec q 0); [reflexivity | lra | lra]. Qed.
  Lemma fsub_same a b : a <> NaN -> b <> NaN -> nless a b = false -> nless b a = false -> null (fsub f a b).
  Proof.
    intros NA NB A B. rewrite <- not_true_iff_false, nless_spec in A, B.
    destruct a as [x|[]|], b as [y|[]|]; cbn in A, B; try tauto; try (left; reflexivity).
    unfold fsub. cbn [neg_num fadd]. apply to_num_null. lra.
  Qed.
  Lemma null_orient d v : null (fx d) -> null (fy d) -> forient f d v = 0%Z.
  Proof. intros X Y. apply null_sgn. unfold farea. apply fsub_null; now apply fmul_null. Qed.
  Lemma self_orient v : forient f v v = 0%Z.
  Proof. apply null_sgn. unfold farea. apply fmul_comm. Qed.
End Zero.

(** ** The stack *)
Lemma fpop_incl f p st : incl (fpop f p st) st.
Proof.
  induction st as [|a [|b st] IH]; try apply incl_refl. cbn [fpop]. destruct (_ =? _)%Z; [apply incl_refl|].
  now apply incl_tl.
Qed.
Lemma fpop_last f p st d : last (fpop f p st) d = last st d.
Proof.
  induction st as [|a [|b st] IH]; try reflexivity. cbn [fpop]. destruct (_ =? _)%Z; [reflexivity|]. exact IH.
Qed.
Lemma fpop_nonempty f p st : st <> [] -> fpop f p st <> [].
Proof.
  induction st as [|a [|b st] IH]; intros N; try easy. cbn [fpop]. destruct (_ =? _)%Z; [easy|]. now apply IH.
Qed.
Lemma fpush_all f l : forall st d, st <> [] ->
  incl (fold_left (fpush f) l st) (l ++ st) /\ last (fold_left (fpush f) l st) d = last st d /\ fold_left (fpush f) l st <> [].
Proof.
  induction l as [|p l IH]; intros st d N; cbn [fold_left]; [split; [apply incl_refl | now split]|].
  destruct (IH (fpush f st p) d) as (A & B & C); [easy|]. split; [|split; [|exact C]].
  - intros x X. apply A in X. apply in_app_or in X as [X|[<-|X]].
    + right. apply in_or_app. now left.
    + now left.
    + right. apply in_or_app. right. eapply fpop_incl; eassumption.
  - rewrite B. unfold fpush. pose proof (fpop_nonempty f p st N) as M. pose proof (fpop_last f p st d) as L.
    destruct (fpop f p st); [easy|]. exact L.
Qed.
Lemma hd_rev (st : list fpt) d : hd d (rev st) = last st d.
Proof.
  destruct (exists_last (l := d :: st)) as (s & x & E); [easy|]. destruct st as [|y st] using rev_ind; [reflexivity|].
  rewrite rev_app_distr. cbn. now rewrite last_last.
Qed.

Theorem fhull_total f pts d : pts <> [] -> Forall numeric pts ->
  exists h, fconvex_hull f pts = Ok h /\ h <> [] /\ incl h pts /\ forall q, In q pts -> fpless q (hd d h) = false.
Proof.
  intros N F. destruct pts as [|p [|p' ps]]; [easy| |].
  - exists [p]. split; [reflexivity|]. split; [easy|]. split; [apply incl_refl|]. intros q [<-|[]]. cbn.
    destruct (fpless p p) eqn:E; [|reflexivity]. now rewrite (fpless_asym _ _ E) in E.
  - unfold fconvex_hull. set (pts := p :: p' :: ps) in *. set (l := p' :: ps) in *.
    destruct (fmin_spec l p) as [Ia Ma]; [now inversion F | now inversion F|].
    destruct (fmax_spec l p) as [Ib Mb]; [now inversion F | now inversion F|].
    set (a := fmin_point p l) in *. set (b := fmax_point p l) in *. change (p :: l) with pts in Ia, Ma, Ib, Mb.
    cbv zeta. set (comp := fun q => negb (forient_pl f q (fmake_line f a b) =? GeoModel.o_right)%Z).
    rewrite Forall_forall in F. destruct (F a Ia) as [Na Na'].
    assert (Ka : forall q, In q pts -> fpless q a = false -> fpless a q = false -> comp q = true).
    { intros q Iq L1 L2. destruct (F q Iq) as [Nq Nq']. apply fpless_false in L1 as [A1 A2], L2 as [B1 B2].
      destruct A2 as [A2|A2]; [congruence|]. destruct B2 as [B2|B2]; [congruence|].
      unfold comp, forient_pl, fmake_line. cbn [flbegin flvec]. rewrite null_orient; [reflexivity| |]; cbn [fx fy fpsub]; now apply fsub_same. }
    assert (Kb : comp b = true) by (unfold comp, forient_pl, fmake_line; cbn [flbegin flvec]; now rewrite self_orient).
    assert (Ca : comp a = true) by (apply Ka; auto; apply Ma; auto).
    assert (Len : (2 <= length (filter comp pts))%nat).
    { destruct (Nat.le_gt_cases 2 (length (filter comp pts))) as [G|G]; [exact G|exfalso].
      assert (Fa : In a (filter comp pts)) by now apply filter_In. assert (Fb : In b (filter comp pts)) by now apply filter_In.
      assert (E : b = a).
      { destruct (filter comp pts) as [|x [|y s]]; [destruct Fa| |cbn in G; lia].
        destruct Fa as [->|[]]. destruct Fb as [->|[]]. reflexivity. }
      assert (All : filter comp pts = pts).
      { assert (Q : forall m, (forall q, In q m -> comp q = true) -> filter comp m = m).
        { induction m as [|x m IH]; intros H; [reflexivity|]. cbn. rewrite H by now left. rewrite IH; [reflexivity|]. intros; apply H; now right. }
        apply Q. intros q Iq. apply Ka; auto. rewrite <- E. now apply Mb. }
      rewrite All in G. cbn in G. lia. }
    rewrite <- (fsort_length fpless) in Len.
    destruct (fsort fpless (filter comp pts)) as [|p0 [|p1 rest]] eqn:S; [cbn in Len; lia..|].
    set (upper := fsort fpgreater (filter (fun q => negb (comp q)) pts)).
    assert (Low : forall x, In x (p0 :: p1 :: rest) -> In x pts).
    { intros x X. rewrite <- S in X. apply fsort_In in X. now apply filter_In in X. }
    assert (Head : forall q, In q pts -> fpless q p0 = false).
    { intros q Q. apply (fpless_trans _ a); auto; [apply F, Low; now left|].
      apply (fsort_head (filter comp pts) p0 (p1 :: rest)); auto.
      - apply Forall_forall. intros x X. apply filter_In in X. now apply F.
      - now apply filter_In. }
    destruct (fpush_all f (rest ++ upper) [p1; p0] d) as (A & B & C); [easy|].
    set (big := fold_left (fpush f) (rest ++ upper) [p1; p0]) in *.
    pose proof (fpop_last f p0 big d) as L0. rewrite B in L0. cbn in L0.
    assert (I0 : incl (fpop f p0 big) pts).
    { intros x X. apply fpop_incl in X. apply A in X. rewrite <- app_assoc in X. apply in_app_or in X as [X|X]; [apply Low; right; now right|].
      apply in_app_or in X as [X|X]; [|apply Low; cbn in *; tauto].
      unfold upper in X. apply fsort_In in X. now apply filter_In in X. }
    pose proof (fpop_nonempty f p0 big C) as N0.
    exists (rev (match fpop f p0 big with [a; b] => if fpeq b a then [b] else fpop f p0 big | _ => fpop f p0 big end)).
    split; [reflexivity|].
    assert (K : let st := match fpop f p0 big with [a; b] => if fpeq b a then [b] else fpop f p0 big | _ => fpop f p0 big end in
      st <> [] /\ incl st pts /\ last st d = p0).
    { cbv zeta. destruct (fpop f p0 big) as [|x [|y [|z st]]]; try now repeat split. destruct (fpeq y x); [|now repeat split].
      split; [easy|]. split; [|exact L0]. intros w [<-|[]]. apply I0. right. now left. }
    cbv zeta in K. destruct K as (K1 & K2 & K3).
    split; [intros E; apply K1; now rewrite <- (rev_involutive (match fpop f p0 big with _ => _ end)), E|].
    split; [intros x X; apply K2; now apply in_rev|].
    rewrite hd_rev, K3. exact Head.
Qed.
