(** The closest pair of points. *)
From Coq Require Import ZArith List Bool Lia Permutation Sorted.
From Verif Require Import Outcome GeoModel HullProofs PolyModel PolyProofs.
Import ListNotations.
Local Open Scope Z_scope.

(** Two points at different positions of the list. *)
Definition two_of (points : list pt) (p q : pt) : Prop := exists rest, Permutation (p :: q :: rest) points.
(** All pairs of positions. *)
Notation all_pairs := (@ForallOrdPairs pt).
Lemma dist2_sym p q : dist2 p q = dist2 q p. Proof. unfold dist2. ring. Qed.
Lemma two_of_sym l p q : two_of l p q -> two_of l q p.
Proof. intros [r H]. exists r. rewrite perm_swap. exact H. Qed.
Lemma two_of_perm l l' p q : Permutation l l' -> two_of l p q -> two_of l' p q.
Proof. intros E [r H]. exists r. now rewrite H. Qed.
Lemma two_of_app_l l1 l2 p q : two_of l1 p q -> two_of (l1 ++ l2) p q.
Proof. intros [r H]. exists (r ++ l2). change (p :: q :: r ++ l2) with ((p :: q :: r) ++ l2). now rewrite H. Qed.
Lemma two_of_app_r l1 l2 p q : two_of l2 p q -> two_of (l1 ++ l2) p q.
Proof. intros H. apply (two_of_app_l l2 l1) in H. eapply two_of_perm; [|exact H]. apply Permutation_app_comm. Qed.
Section Pairs.
Context (R : pt -> pt -> Prop).
Hypothesis SYM : forall a b, R a b -> R b a.
Lemma all_pairs_perm l l' : Permutation l l' -> all_pairs R l -> all_pairs R l'.
Proof.
  induction 1 as [|x l l' E IH|x y l|l1 l2 l3 E1 IH1 E2 IH2]; intros H; auto.
  - inversion H; subst. constructor; auto. now rewrite <- E.
  - inversion H as [|? ? F H']; subst. inversion H' as [|? ? F' H'']; subst. inversion F; subst. constructor; constructor; auto.
Qed.
Lemma all_pairs_app l1 l2 : all_pairs R l1 -> all_pairs R l2 -> (forall a b, In a l1 -> In b l2 -> R a b) -> all_pairs R (l1 ++ l2).
Proof.
  induction l1 as [|a l1 IH]; intros H1 H2 C; [exact H2|]. inversion H1; subst. cbn. constructor.
  - apply Forall_app. split; auto. apply Forall_forall. intros b B. apply C; auto. now left.
  - apply IH; auto. intros x y X Y. apply C; auto. now right.
Qed.
End Pairs.
Lemma all_pairs_two R l : all_pairs R l <-> forall p q l1 l2 l3, l = l1 ++ p :: l2 ++ q :: l3 -> R p q.
Proof.
  split.
  - intros H p q l1 l2 l3 ->. induction l1 as [|x l1 IH]; inversion H as [|? ? F H']; subst.
    + rewrite Forall_forall in F. apply F. apply in_app_iff. right. now left.
    + auto.
  - induction l as [|a l IH]; intros H; constructor.
    + apply Forall_forall. intros b B. apply in_split in B as (l2 & l3 & ->). now apply (H a b [] l2 l3).
    + apply IH. intros p q l1 l2 l3 ->. now apply (H p q (a :: l1) l2 l3).
Qed.
(** A result: the squared distance of two of the points. *)
Definition valid (points : list pt) (res : closer) : Prop :=
  fst res = dist2 (fst (snd res)) (snd (snd res)) /\ two_of points (fst (snd res)) (snd (snd res)).
Definition least (points : list pt) (res : closer) : Prop := all_pairs (fun a b => fst res <= dist2 a b) points.

(** ** Small sets *)
Lemma index_pairs_spec l : forall p q, In (p, q) (index_pairs l) <-> exists l1 l2 l3, l = l1 ++ p :: l2 ++ q :: l3.
Proof.
  induction l as [|a l IH]; intros p q; cbn.
  - split; [tauto|]. intros (l1 & l2 & l3 & E). destruct l1; discriminate.
  - rewrite in_app_iff, IH, in_map_iff. split.
    + intros [(x & E & I)|(l1 & l2 & l3 & ->)].
      * injection E as -> ->. apply in_split in I as (l2 & l3 & ->). exists [], l2, l3. reflexivity.
      * exists (a :: l1), l2, l3. reflexivity.
    + intros (l1 & l2 & l3 & E). destruct l1 as [|x l1]; cbn in E; injection E as -> ->.
      * left. exists q. split; auto. apply in_app_iff. right. now left.
      * right. eauto.
Qed.
Lemma brute_fold l : forall res, let r := fold_left brute_step l res in
  fst r <= fst res /\ (forall p q, In (p, q) l -> fst r <= dist2 p q)
  /\ (r = res \/ (fst r = dist2 (fst (snd r)) (snd (snd r)) /\ In (snd r) l)).
Proof.
  induction l as [|pq l IH]; intros res; cbn; [split; [lia|]; split; [tauto | auto]|].
  destruct (IH (brute_step res pq)) as (A & B & C). unfold brute_step in *. set (r := fold_left _ l _) in *.
  destruct (Z.ltb_spec (dist2 (fst pq) (snd pq)) (fst res)); cbn [fst] in *; (split; [lia|]; split).
  - intros p q [->|I]; [cbn in *; lia | auto].
  - right. destruct C as [->|[C1 C2]]; [cbn; auto | auto].
  - intros p q [->|I]; [cbn in *; lia | auto].
  - destruct C as [->|[C1 C2]]; auto.
Qed.
Lemma brute_spec points : (2 <= length points)%nat -> valid points (brute points) /\ least points (brute points).
Proof.
  intros L. unfold brute. pose proof (index_pairs_spec points) as S. destruct (index_pairs points) as [|pq l].
  { exfalso. destruct points as [|a [|b r]]; cbn in L; try lia. apply (proj2 (S a b)). exists [], [], r. reflexivity. }
  destruct (brute_fold l (dist2 (fst pq) (snd pq), pq)) as (A & B & C). cbn zeta in *.
  set (r := fold_left brute_step l _) in *. cbn [fst] in A. split.
  - assert (V : fst r = dist2 (fst (snd r)) (snd (snd r)) /\ In (snd r) (pq :: l)).
    { destruct C as [->|[C1 C2]]; cbn; auto. }
    destruct V as [V1 V2]. split; [exact V1|]. destruct (snd r) as [p q]. apply S in V2 as (l1 & l2 & l3 & ->).
    exists (l1 ++ l2 ++ l3). cbn.
    rewrite <- (Permutation_middle l1 (l2 ++ q :: l3) p). constructor. rewrite !app_assoc. apply Permutation_middle.
  - apply all_pairs_two. intros p q l1 l2 l3 E. assert (I : In (p, q) (pq :: l)) by (apply S; eauto).
    destruct I as [->|I]; [cbn in *; lia | auto].
Qed.

(** ** Merging *)
Lemma merge_by_cons less a l1 b l2 : merge_by less (a :: l1) (b :: l2) =
  if less b a then b :: merge_by less (a :: l1) l2 else a :: merge_by less l1 (b :: l2).
Proof. reflexivity. Qed.
Lemma merge_by_perm less : forall l1 l2, Permutation (merge_by less l1 l2) (l1 ++ l2).
Proof.
  induction l1 as [|a l1 IH]; [reflexivity|]. induction l2 as [|b l2 IH2]; [cbn; now rewrite app_nil_r|].
  rewrite merge_by_cons. destruct (less b a).
  - rewrite IH2. apply Permutation_middle.
  - rewrite IH. reflexivity.
Qed.
Definition y_le (a b : pt) : Prop := py a <= py b.
Lemma merge_by_sorted : forall l1 l2, StronglySorted y_le l1 -> StronglySorted y_le l2 -> StronglySorted y_le (merge_by y_comp l1 l2).
Proof.
  induction l1 as [|a l1 IH]; intros l2 S1 S2; [exact S2|].
  induction S2 as [|b l2 S2 IH2 F2]; [exact S1|]. rewrite merge_by_cons. inversion S1 as [|? ? S1' F1]; subst.
  unfold y_comp at 1. destruct (Z.ltb_spec (py b) (py a)) as [H|H].
  - constructor; [exact IH2|]. rewrite merge_by_perm. apply Forall_app. split; [|exact F2].
    constructor; [unfold y_le; lia|]. eapply Forall_impl; [|exact F1]. unfold y_le. intros; lia.
  - constructor; [apply IH; auto; now constructor|]. rewrite merge_by_perm. apply Forall_app. split; [exact F1|].
    constructor; [exact H|]. eapply Forall_impl; [|exact F2]. unfold y_le. intros; lia.
Qed.
Lemma sort_y l : StronglySorted y_le (sort y_comp l).
Proof.
  apply sort_sorted; unfold y_comp, y_le.
  - intros x y H. apply Z.ltb_lt in H. lia.
  - intros x y H. apply Z.ltb_ge in H. lia.
  - lia.
Qed.

(** ** The strip *)
Lemma lt_dist_spec x d : 0 <= x -> lt_dist x d = (x * x <? d).
Proof. intros H. unfold lt_dist. destruct (Z.ltb_spec x 0); [lia | reflexivity]. Qed.
Definition y_ge (a b : pt) : Prop := py b <= py a.
Lemma strip_inner_spec p : forall tmp res, StronglySorted y_ge tmp -> (forall q, In q tmp -> py q <= py p) ->
  let r := strip_inner p tmp res in
  fst r <= fst res /\ (forall q, In q tmp -> fst r <= dist2 p q)
  /\ (r = res \/ exists q, In q tmp /\ r = (dist2 p q, (p, q))).
Proof.
  induction tmp as [|q tmp IH]; intros res S Y; cbn; [split; [lia|]; split; [tauto | auto]|].
  inversion S as [|? ? S' F]; subst. assert (Yq : py q <= py p) by (apply Y; now left).
  rewrite lt_dist_spec by lia. destruct (Z.ltb_spec ((py p - py q) * (py p - py q)) (fst res)) as [H|H]; cbn [negb].
  - match goal with |- context [strip_inner p tmp ?x] => set (res' := x) end.
    destruct (IH res' S') as (A & B & C); [intros x X; apply Y; now right|].
    set (r := strip_inner p tmp res') in *.
    assert (R1 : fst res' <= fst res /\ fst res' <= dist2 p q).
    { unfold res'. destruct (Z.ltb_spec (dist2 p q) (fst res)); cbn; lia. }
    split; [lia|]. split; [intros x [<-|X]; [lia | auto]|].
    destruct C as [->|(x & X & ->)]; [|right; exists x; auto].
    unfold res'. destruct (dist2 p q <? fst res); [right; exists q; auto | auto].
  - split; [lia|]. split; [|auto]. intros x [<-|X]; [unfold dist2; pose proof (Z.square_nonneg (px p - px q)); lia|].
    rewrite Forall_forall in F. specialize (F x X). unfold y_ge in F. assert (py x <= py p) by (apply Y; now right).
    unfold dist2. pose proof (Z.square_nonneg (px p - px x)).
    assert ((py p - py q) * (py p - py q) <= (py p - py x) * (py p - py x)) by nia. lia.
Qed.
Definition across (mx : Z) (a b : pt) : Prop := (px a <= mx <= px b) \/ (px b <= mx <= px a).
Lemma across_dist mx a b : across mx a b -> (px a - mx) * (px a - mx) <= dist2 a b /\ (px b - mx) * (px b - mx) <= dist2 a b.
Proof.
  unfold across, dist2. intros H. pose proof (Z.square_nonneg (py a - py b)). generalize dependent (py a - py b). intros d H'.
  destruct H as [H|H]; split; nia.
Qed.
Lemma strip_loop_spec mx pts : StronglySorted y_le pts -> forall rest done tmp res,
  pts = done ++ rest -> incl tmp done -> StronglySorted y_ge tmp ->
  valid pts res ->
  all_pairs (fun a b => across mx a b -> fst res <= dist2 a b) done ->
  (forall q, In q done -> In q tmp \/ fst res <= (px q - mx) * (px q - mx)) ->
  let r := strip_loop mx rest tmp res in
  fst r <= fst res /\ valid pts r /\ all_pairs (fun a b => across mx a b -> fst r <= dist2 a b) pts.
Proof.
  intros SY. induction rest as [|p rest IH]; intros done tmp res E I S V C T; cbn.
  - rewrite app_nil_r in E. subst. split; [lia|]. auto.
  - assert (SYM : forall d a b, (across mx a b -> d <= dist2 a b) -> across mx b a -> d <= dist2 b a).
    { intros d a b H A. rewrite dist2_sym. apply H. unfold across in *. tauto. }
    assert (Low : forall q, In q done -> py q <= py p).
    { intros q Q. rewrite E in SY. clear -SY Q. induction done as [|x done IH]; [destruct Q|].
      cbn in SY. inversion SY as [|? ? S F]; subst. destruct Q as [->|Q]; auto.
      rewrite Forall_forall in F. apply F. apply in_app_iff. right. now left. }
    rewrite lt_dist_spec by lia. rewrite <- Z.abs_mul, (Z.abs_eq ((px p - mx) * (px p - mx))) by apply Z.square_nonneg.
    assert (E' : pts = (done ++ [p]) ++ rest) by (rewrite <- app_assoc; exact E).
    destruct (Z.ltb_spec ((px p - mx) * (px p - mx)) (fst res)) as [H|H].
    + destruct (strip_inner_spec p tmp res S) as (A & B & D); [intros q Q; apply Low, I, Q|].
      set (r := strip_inner p tmp res) in *.
      destruct (IH (done ++ [p]) (p :: tmp) r E') as (A' & B' & C'); auto.
      * intros x [<-|X]; apply in_app_iff; [right; now left | left; now apply I].
      * constructor; auto. apply Forall_forall. intros q Q. unfold y_ge. apply Low, I, Q.
      * destruct D as [->|(q & Q & ->)]; [exact V|]. split; [reflexivity|]. cbn.
        apply I, in_split in Q as (d1 & d2 & ->). exists (d1 ++ d2 ++ rest). rewrite E, <- app_assoc. cbn.
        transitivity (q :: p :: d1 ++ d2 ++ rest); [constructor|].
        rewrite <- (Permutation_middle d1 (d2 ++ p :: rest) q). constructor.
        rewrite !app_assoc. apply Permutation_middle.
      * apply all_pairs_app.
        -- apply all_pairs_two. intros x y l1 l2 l3 El Ac. pose proof (proj1 (all_pairs_two _ _) C x y l1 l2 l3 El Ac). lia.
        -- repeat constructor.
        -- intros a b Ia [<-|[]] Ac. destruct (T a Ia) as [Ta|Ta].
           ++ rewrite dist2_sym. now apply B.
           ++ pose proof (proj1 (across_dist mx a p Ac)). lia.
      * intros q Q. apply in_app_iff in Q as [Q|[<-|[]]]; [|left; now left].
        destruct (T q Q) as [Tq|Tq]; [left; now right | right; lia].
      * split; [lia|]. auto.
    + apply (IH (done ++ [p]) tmp res E'); auto.
      * intros x X. apply in_app_iff. left. now apply I.
      * apply all_pairs_app; auto; [repeat constructor|].
        intros a b Ia [<-|[]] Ac. pose proof (proj2 (across_dist mx a p Ac)). lia.
      * intros q Q. apply in_app_iff in Q as [Q|[<-|[]]]; auto.
Qed.

(** ** The recursion *)
Definition x_le (a b : pt) : Prop := px a <= px b.
Lemma sorted_split (R : pt -> pt -> Prop) l1 l2 : StronglySorted R (l1 ++ l2) ->
  StronglySorted R l1 /\ StronglySorted R l2 /\ forall a b, In a l1 -> In b l2 -> R a b.
Proof.
  induction l1 as [|x l1 IH]; cbn; intros S; [split; [constructor|]; split; [exact S | intros ? ? []]|].
  inversion S as [|? ? S' F]; subst. destruct (IH S') as (A & B & C). apply Forall_app in F as [F1 F2].
  split; [now constructor|]. split; auto. intros a b [<-|Ia] Ib; auto. rewrite Forall_forall in F2. auto.
Qed.
Lemma skipn_head k : forall l : list pt, (k < length l)%nat -> exists r, skipn k l = nth k l (P 0 0) :: r.
Proof. induction k as [|k IH]; intros [|x l] L; cbn in *; try lia; [eauto|]. apply IH. lia. Qed.
Theorem nearest_rec_spec : forall fuel points, (2 <= length points)%nat -> (length points <= fuel)%nat ->
  StronglySorted x_le points ->
  exists res pts, nearest_rec fuel points = Ok (res, pts) /\ Permutation pts points /\ StronglySorted y_le pts
  /\ valid points res /\ least points res.
Proof.
  induction fuel as [|fuel IH]; intros points L2 LF S; [lia|].
  cbn [nearest_rec]. destruct (Nat.leb_spec (length points) 3) as [H|H].
  - eexists _, _. split; [reflexivity|]. split; [apply sort_perm|]. split; [apply sort_y|]. now apply brute_spec.
  - set (n := length points) in *. set (m := (n / 2)%nat).
    assert (M : (2 <= m)%nat /\ (m + 2 <= n)%nat).
    { unfold m. pose proof (Nat.div_mod n 2 ltac:(lia)). pose proof (Nat.mod_upper_bound n 2 ltac:(lia)). lia. }
    assert (L1 : length (firstn m points) = m) by (rewrite firstn_length; fold n; lia).
    assert (L3 : length (skipn m points) = (n - m)%nat) by (rewrite skipn_length; reflexivity).
    pose proof (firstn_skipn m points) as FS. rewrite <- FS in S. apply sorted_split in S as (S1 & S3 & SX).
    destruct (IH (firstn m points)) as (lres & lp & E1 & P1 & Y1 & V1 & T1); auto; [lia | lia|].
    destruct (IH (skipn m points)) as (rres & rp & E3 & P3 & Y3 & V3 & T3); auto; [lia | lia|].
    rewrite E1, E3. cbn [bind]. set (mx := px (nth m points (P 0 0))). set (res := if fst rres <? fst lres then rres else lres).
    set (pts := merge_by y_comp lp rp).
    assert (PP : Permutation pts points).
    { unfold pts. rewrite merge_by_perm, P1, P3, FS. reflexivity. }
    assert (SP : StronglySorted y_le pts) by now apply merge_by_sorted.
    assert (VR : valid points res).
    { unfold res. rewrite <- FS. destruct (fst rres <? fst lres).
      - destruct V3 as [A B]. split; auto. now apply two_of_app_r.
      - destruct V1 as [A B]. split; auto. now apply two_of_app_l. }
    destruct (strip_loop_spec mx pts SP pts [] [] res) as (A & B & C); auto.
    all: try now constructor.
    + intros x [].
    + destruct VR as [VA VB]. split; auto. eapply two_of_perm; [symmetry; exact PP | exact VB].
    + eexists _, _. split; [reflexivity|]. split; [exact PP|]. split; [exact SP|]. split.
      * destruct B as [BA BB]. split; auto. eapply two_of_perm; [exact PP | exact BB].
      * set (r := strip_loop mx pts [] res) in *.
        assert (RL : fst res <= fst lres /\ fst res <= fst rres).
        { unfold res. destruct (Z.ltb_spec (fst rres) (fst lres)); lia. }
        assert (C' : all_pairs (fun a b => across mx a b -> fst r <= dist2 a b) points).
        { eapply all_pairs_perm; [|exact PP | exact C]. intros a b Q Ac. rewrite dist2_sym. apply Q. unfold across in *. tauto. }
        unfold least. rewrite <- FS. apply all_pairs_app.
        -- apply all_pairs_two. intros x y l1 l2 l3 El. pose proof (proj1 (all_pairs_two _ _) T1 x y l1 l2 l3 El). cbn in *. lia.
        -- apply all_pairs_two. intros x y l1 l2 l3 El. pose proof (proj1 (all_pairs_two _ _) T3 x y l1 l2 l3 El). cbn in *. lia.
        -- intros a b Ia Ib.
           assert (Mid : exists r3, skipn m points = nth m points (P 0 0) :: r3).
           { apply skipn_head. fold n. lia. }
           destruct Mid as [r3 Mid].
           assert (X1 : px a <= mx) by (unfold mx; apply SX; auto; rewrite Mid; now left).
           assert (X2 : mx <= px b).
           { rewrite Mid in S3, Ib. inversion S3 as [|? ? _ F]; subst. destruct Ib as [<-|Ib]; [unfold mx; lia|].
             rewrite Forall_forall in F. now apply F. }
           apply in_split in Ia as (a1 & a2 & Ea). apply in_split in Ib as (b1 & b2 & Eb).
           apply (proj1 (all_pairs_two _ _) C' a b a1 (a2 ++ b1) b2).
           ++ rewrite <- FS, Ea, Eb, <- !app_assoc. cbn. rewrite <- ?app_assoc. reflexivity.
           ++ left. lia.
Qed.
Lemma adjacent_equal_spec l : StronglySorted below l ->
  match adjacent_equal l with
  | Some (p, q) => p = q /\ two_of l p q
  | None => NoDup l
  end.
Proof.
  induction 1 as [|x l S IH F]; cbn; [constructor|]. destruct l as [|y l]; [repeat constructor; auto|].
  destruct (peq x y) eqn:E.
  - apply peq_spec in E. subst. split; auto. exists l. reflexivity.
  - destruct (adjacent_equal (y :: l)) as [[p q]|].
    + destruct IH as [-> IH]. split; auto. now apply (two_of_app_r [x]).
    + constructor; auto. intros I. inversion F as [|? ? Fy F']; subst. inversion S as [|? ? _ Fl]; subst.
      assert (below y x). { destruct I as [->|I]; [apply below_refl|]. rewrite Forall_forall in Fl. now apply Fl. }
      assert (x = y) by now apply below_anti. apply (proj2 (peq_spec x y)) in H0. congruence.
Qed.
Theorem nearest_pair_spec points : (2 <= length points)%nat ->
  exists p q, nearest_pair points = Ok (p, q) /\ two_of points p q
  /\ all_pairs (fun a b => dist2 p q <= dist2 a b) points.
Proof.
  intros L. unfold nearest_pair. destruct (Z.ltb_spec 1 (Z.of_nat (length points))) as [_|H]; [|lia]. cbn [negb].
  assert (PS : Permutation (sort pless points) points) by apply sort_perm.
  assert (SS : StronglySorted below (sort pless points)).
  { apply sort_sorted; [intros x y H; now apply sbelow_below, pless_true | intros x y H; now apply pless_false | apply below_trans]. }
  pose proof (adjacent_equal_spec _ SS) as A. destruct (adjacent_equal (sort pless points)) as [[p q]|].
  - destruct A as [-> A]. exists q, q. split; auto. split; [eapply two_of_perm; eauto|].
    apply all_pairs_two. intros a b l1 l2 l3 _. unfold dist2.
    pose proof (Z.square_nonneg (px a - px b)). pose proof (Z.square_nonneg (py a - py b)). nia.
  - assert (SX : StronglySorted x_le (sort pless points)).
    { clear -SS. induction SS as [|x l S IH F]; constructor; auto. eapply Forall_impl; [|exact F]. unfold below, x_le. intros; lia. }
    destruct (nearest_rec_spec (length (sort pless points)) (sort pless points)) as (res & pts & E & _ & _ & [V1 V2] & T); auto.
    { rewrite (Permutation_length PS). exact L. }
    rewrite E. cbn [bind]. destruct (snd res) as [p q]. cbn in V1, V2. exists p, q. split; auto.
    split; [eapply two_of_perm; eauto|]. rewrite <- V1.
    eapply all_pairs_perm; [|exact PS | exact T]. intros a b. now rewrite dist2_sym.
Qed.
