(** Proofs about winding numbers and point location: PolyModel.v. *)
From Coq Require Import ZArith List Bool Lia.
From Verif Require Import Outcome GeoModel HullProofs GeoProofs PolyModel.
Import ListNotations.
Local Open Scope Z_scope.

Lemma orient3_turn l r o : orient3 l r o = Z.sgn (turn o r l).
Proof. unfold orient3, orient, area, turn, psub. cbn [px py]. f_equal; ring. Qed.
Lemma peq_spec p q : peq p q = true <-> p = q.
Proof.
  unfold peq. rewrite andb_true_iff, !Z.eqb_eq. split; [intros []; now apply pt_eq | intros ->; auto].
Qed.

(** The point is on the segment. *)
Definition on_seg (p a b : pt) : Prop :=
  turn a b p = 0 /\ Z.min (px a) (px b) <= px p <= Z.max (px a) (px b)
  /\ Z.min (py a) (py b) <= py p <= Z.max (py a) (py b).
(** Consecutive points of a path; the edges of a polygon. *)
Definition path_edge (l : list pt) (a b : pt) : Prop := exists l1 l2, l = l1 ++ a :: b :: l2.
Definition closed (poly : list pt) : list pt := poly ++ firstn 1 poly.
Definition poly_edge (poly : list pt) (a b : pt) : Prop := path_edge (closed poly) a b.

(** What an edge adds: crossings of the horizontal ray from the point to the right, upwards
    with plus and downwards with minus. *)
Definition contrib (p a b : pt) : Z :=
  if (py a <? py p) && negb (py b <? py p) && (0 <? turn a b p) then 1
  else if negb (py a <? py p) && (py b <? py p) && (turn a b p <? 0) then -1
  else 0.
Fixpoint wsum (p : pt) (l : list pt) : Z :=
  match l with
  | a :: ((b :: _) as l') => contrib p a b + wsum p l'
  | _ => 0
  end.

Lemma turn_swap a b p : turn b a p = - turn a b p.
Proof. unfold turn. ring. Qed.
Lemma turn_swap2 o a b : turn o b a = - turn o a b.
Proof. unfold turn. ring. Qed.
Lemma on_seg_sym p a b : on_seg p a b <-> on_seg p b a.
Proof. unfold on_seg. rewrite (turn_swap a b p). split; intros (A & B & C); repeat split; lia. Qed.
Lemma on_seg_left p b : on_seg p p b. Proof. unfold on_seg, turn. repeat split; try lia. Qed.
Lemma on_seg_same p a : on_seg p a a -> p = a.
Proof. intros (_ & A & B). apply pt_eq; lia. Qed.
Lemma contrib_swap p a b : contrib p b a = - contrib p a b.
Proof.
  unfold contrib. rewrite (turn_swap a b p).
  destruct (Z.ltb_spec (py a) (py p)), (Z.ltb_spec (py b) (py p)), (Z.ltb_spec 0 (turn a b p)),
    (Z.ltb_spec (turn a b p) 0), (Z.ltb_spec 0 (- turn a b p)), (Z.ltb_spec (- turn a b p) 0); cbn; lia.
Qed.

(** Points at the height between the ends, on the line: on the segment. *)
Lemma on_seg_cross p a b : py a < py p <= py b -> turn a b p = 0 -> on_seg p a b.
Proof.
  intros H T. split; [exact T|]. split; [|lia]. unfold turn in T.
  assert (K : (px p - px a) * (py b - py a) = (px b - px a) * (py p - py a)) by lia.
  set (h := py b - py a) in *. set (k := py p - py a) in *. assert (0 < k <= h) by (unfold h, k; lia).
  set (u := px p - px a) in *. set (w := px b - px a) in *.
  assert (0 <= w -> 0 <= u <= w) by (intros; nia).
  assert (w <= 0 -> w <= u <= 0) by (intros; nia). unfold u, w in *. lia.
Qed.
Lemma edge_step_spec p a b :
  match edge_step p a b with
  | None => on_seg p a b
  | Some d => d = contrib p a b /\ p <> a /\ (on_seg p a b -> p = b)
  end.
Proof.
  unfold edge_step. destruct (peq p a) eqn:E; [apply peq_spec in E; subst; apply on_seg_left|].
  assert (Na : p <> a) by (intros H; apply peq_spec in H; congruence). clear E.
  destruct (Z.eqb_spec (py a) (py p)) as [Ya|Ya]; [destruct (Z.eqb_spec (py b) (py p)) as [Yb|Yb]|]; cbn [andb].
  - assert (C : contrib p a b = 0).
    { unfold contrib. rewrite Ya, Yb, Z.ltb_irrefl. reflexivity. }
    assert (T : turn a b p = 0) by (unfold turn; rewrite Ya, Yb; ring).
    destruct (Z.ltb_spec (px a) (px b)), (Z.ltb_spec (px p) (px a)), (Z.ltb_spec (px b) (px p)),
      (Z.ltb_spec (px p) (px b)), (Z.ltb_spec (px a) (px p)); cbn [negb andb]; try lia;
      try (split; [auto | split; [auto | unfold on_seg; lia]]);
      try (unfold on_seg; lia).
  - rewrite orient3_turn. unfold contrib, o_collinear, o_right. rewrite Ya, Z.ltb_irrefl.
    destruct (Z.ltb_spec (py b) (py p)); cbn [Bool.eqb negb andb].
    + destruct (Z.eqb_spec (Z.sgn (turn a b p)) 0) as [S|S].
      * apply Z.sgn_null_iff in S. apply on_seg_sym. exfalso. apply Na.
        unfold turn in S. rewrite Ya in S. apply pt_eq; [nia | auto].
      * destruct (Z.eqb_spec (Z.sgn (turn a b p)) 1) as [S1|S1], (Z.ltb_spec (turn a b p) 0); cbn [Bool.eqb];
          (split; [lia | split; [auto | intros (T & _); lia]]).
    + split; [reflexivity|]. split; auto. intros (T & A & B). exfalso. apply Na. unfold turn in T.
      rewrite Ya in T. apply pt_eq; [nia | auto].
  - rewrite orient3_turn. unfold contrib, o_collinear, o_right.
    destruct (Z.ltb_spec (py a) (py p)), (Z.ltb_spec (py b) (py p)); cbn [Bool.eqb negb andb].
    + split; [reflexivity|]. split; auto. intros (_ & _ & B). lia.
    + destruct (Z.eqb_spec (Z.sgn (turn a b p)) 0) as [S|S].
      * apply Z.sgn_null_iff in S. apply on_seg_cross; lia.
      * destruct (Z.eqb_spec (Z.sgn (turn a b p)) 1) as [S1|S1], (Z.ltb_spec 0 (turn a b p)); cbn [Bool.eqb];
          (split; [lia | split; [auto | intros (T & _); lia]]).
    + destruct (Z.eqb_spec (Z.sgn (turn a b p)) 0) as [S|S].
      * apply Z.sgn_null_iff in S. apply on_seg_sym. apply on_seg_cross; [lia|]. rewrite turn_swap. lia.
      * destruct (Z.eqb_spec (Z.sgn (turn a b p)) 1) as [S1|S1], (Z.ltb_spec (turn a b p) 0); cbn [Bool.eqb];
          (split; [lia | split; [auto | intros (T & _); lia]]).
    + split; [reflexivity|]. split; auto. intros (T & A & B).
      assert (py b = py p) by lia. unfold turn in T. apply pt_eq; [|lia].
      rewrite <- H1 in T. nia.
Qed.

(** The loop over edges as a loop over a path. *)
Fixpoint path_loop (p : pt) (l : list pt) (res : Z) : winding :=
  match l with
  | a :: ((b :: _) as l') =>
      match edge_step p a b with
      | None => Boundary
      | Some d => path_loop p l' (res + d)
      end
  | _ => Wind res
  end.
Fixpoint cycpath (poly : list pt) (n : nat) (i : Z) : list pt :=
  cyc poly i :: match n with O => [] | S n => cycpath poly n (i + 1) end.
Lemma winding_loop_path p poly : forall n i res,
  winding_loop p poly n i res = path_loop p (cycpath poly n i) res.
Proof.
  induction n as [|n IH]; intros i res; [reflexivity|].
  cbn [winding_loop]. change (cycpath poly (S n) i) with (cyc poly i :: cycpath poly n (i + 1)).
  assert (E : exists r, cycpath poly n (i + 1) = cyc poly (i + 1) :: r) by (destruct n; eexists; reflexivity).
  destruct E as [r E]. rewrite E. cbn [path_loop].
  destruct (edge_step p (cyc poly i) (cyc poly (i + 1))); [rewrite IH, E; reflexivity | reflexivity].
Qed.
Lemma cycpath_length poly n : forall i, length (cycpath poly n i) = S n.
Proof. induction n; intros i; cbn; [reflexivity | now rewrite IHn]. Qed.
Lemma cycpath_nth poly d n : forall i k, (k <= n)%nat -> nth k (cycpath poly n i) d = cyc poly (i + Z.of_nat k).
Proof.
  induction n; intros i k H; [assert (k = O) by lia; subst; cbn; f_equal; lia|].
  destruct k; [cbn; f_equal; lia|]. cbn [cycpath nth]. rewrite IHn by lia. f_equal. lia.
Qed.
Lemma closed_length poly : poly <> [] -> length (closed poly) = S (length poly).
Proof. intros H. unfold closed. rewrite app_length. destruct poly; [congruence|cbn; lia]. Qed.
Lemma cycpath_closed poly : poly <> [] -> cycpath poly (length poly) 0 = closed poly.
Proof.
  intros H. apply nth_ext with (d := P 0 0) (d' := P 0 0).
  - rewrite cycpath_length, closed_length; auto.
  - intros k Hk. rewrite cycpath_length in Hk. rewrite cycpath_nth by lia. unfold cyc, closed.
    destruct (Nat.eq_dec k (length poly)) as [->|N].
    + rewrite app_nth2, Nat.sub_diag by lia. rewrite Z.add_0_l, Z.mod_same by (destruct poly; cbn in *; [congruence|lia]).
      destruct poly; [congruence|reflexivity].
    + rewrite app_nth1 by lia. rewrite Z.add_0_l, Z.mod_small, Nat2Z.id by lia. reflexivity.
Qed.
Lemma winding_number_path p poly : (2 <= length poly)%nat -> winding_number p poly = path_loop p (closed poly) 0.
Proof.
  intros H. rewrite <- cycpath_closed by (destruct poly; cbn in H; [lia|congruence]).
  rewrite <- winding_loop_path. destruct poly as [|a [|b l]]; cbn in H; try lia. reflexivity.
Qed.

Lemma path_edge_cons a l u v : path_edge (a :: l) u v <->
  (a = u /\ exists r, l = v :: r) \/ path_edge l u v.
Proof.
  unfold path_edge. split.
  - intros (l1 & l2 & E). destruct l1 as [|x l1]; cbn in E; injection E as -> ->; [left; eauto | right; eauto].
  - intros [[-> [r ->]]|(l1 & l2 & ->)]; [exists [], r; reflexivity | exists (a :: l1), l2; reflexivity].
Qed.
Lemma path_edge_nil u v : ~ path_edge [] u v.
Proof. intros (l1 & l2 & E). destruct l1; discriminate. Qed.
Lemma path_loop_spec p : forall l res,
  match path_loop p l res with
  | Boundary => exists a b, path_edge l a b /\ on_seg p a b
  | Wind r => r = res + wsum p l /\ forall a b, path_edge l a b -> p <> a /\ (on_seg p a b -> p = b)
  end.
Proof.
  induction l as [|a l IH]; intros res; [cbn; split; [lia | intros ? ? H; now apply path_edge_nil in H]|].
  destruct l as [|b l].
  - cbn. split; [lia|]. intros u v H. apply path_edge_cons in H as [[_ [r E]]|H]; [discriminate | now apply path_edge_nil in H].
  - change (path_loop p (a :: b :: l) res) with
      (match edge_step p a b with None => Boundary | Some d => path_loop p (b :: l) (res + d) end).
    pose proof (edge_step_spec p a b) as E. destruct (edge_step p a b) as [d|].
    + specialize (IH (res + d)). destruct E as (E1 & E2 & E3). destruct (path_loop p (b :: l) (res + d)) as [|r].
      * destruct IH as (u & v & H & O). exists u, v. split; auto. apply path_edge_cons. auto.
      * destruct IH as [IH1 IH2]. split.
        -- change (wsum p (a :: b :: l)) with (contrib p a b + wsum p (b :: l)). lia.
        -- intros u v H. apply path_edge_cons in H as [[-> [r' H]]|H]; [injection H as -> _; auto | auto].
    + exists a, b. split; auto. apply path_edge_cons. left. eauto.
Qed.
Lemma closed_start poly b : In b (closed poly) -> (1 <= length poly)%nat -> exists c, poly_edge poly b c.
Proof.
  intros H L. unfold closed in H. assert (In b poly) as I.
  { apply in_app_iff in H as [H|H]; auto. destruct poly; cbn in *; [lia|]. destruct H; [left; auto | tauto]. }
  apply in_split in I as (l1 & l2 & ->). unfold poly_edge, path_edge, closed.
  destruct l2 as [|c l2].
  - destruct l1 as [|x l1]; cbn; [exists b, [], []; reflexivity|].
    exists x, (x :: l1), []. rewrite <- app_assoc. reflexivity.
  - exists c, l1, (l2 ++ firstn 1 (l1 ++ b :: c :: l2)). rewrite <- app_assoc. reflexivity.
Qed.
Lemma path_edge_In l a b : path_edge l a b -> In a l /\ In b l.
Proof. intros (l1 & l2 & ->). rewrite !in_app_iff. cbn. tauto. Qed.

Theorem winding_spec p poly :
  match winding_number p poly with
  | Boundary => exists a b, poly_edge poly a b /\ on_seg p a b
  | Wind r => r = wsum p (closed poly) /\ forall a b, poly_edge poly a b -> ~ on_seg p a b
  end.
Proof.
  destruct poly as [|x [|y l]].
  - cbn. split; [reflexivity|]. intros a b H. now apply path_edge_nil in H.
  - cbn [winding_number]. destruct (peq p x) eqn:E.
    + apply peq_spec in E. subst. exists x, x. split; [exists [], []; reflexivity | apply on_seg_left].
    + split.
      * cbn. unfold contrib. destruct (Z.ltb_spec (py x) (py p)); reflexivity.
      * intros a b (l1 & l2 & H) O. cbn in H. destruct l1 as [|u [|v l1]]; cbn in H.
        -- injection H as -> -> _. apply on_seg_same in O. subst.
           assert (peq b b = true) by now apply peq_spec. congruence.
        -- injection H as _ _ H. discriminate.
        -- injection H as _ _ H. destruct l1; discriminate.
  - rewrite winding_number_path by (cbn; lia). pose proof (path_loop_spec p (closed (x :: y :: l)) 0) as S.
    destruct (path_loop p (closed (x :: y :: l)) 0) as [|r]; [exact S|]. destruct S as [-> S].
    split; [lia|]. intros a b H O. pose proof (S a b H) as [_ Q]. specialize (Q O). subst b.
    destruct (closed_start (x :: y :: l) p) as [c E]; [now apply path_edge_In in H | cbn; lia|].
    apply (proj1 (S p c E)). reflexivity.
Qed.

(** ** Algebra of the sum *)
Lemma wsum_app p x l2 : forall l1, wsum p (l1 ++ x :: l2) = wsum p (l1 ++ [x]) + wsum p (x :: l2).
Proof.
  induction l1 as [|a l1 IH]; [cbn; lia|]. destruct l1 as [|b l1].
  - change (([a] ++ x :: l2)) with (a :: x :: l2). change ([a] ++ [x]) with [a; x].
    change (wsum p (a :: x :: l2)) with (contrib p a x + wsum p (x :: l2)).
    change (wsum p [a; x]) with (contrib p a x + 0). lia.
  - change (wsum p ((a :: b :: l1) ++ x :: l2)) with (contrib p a b + wsum p ((b :: l1) ++ x :: l2)).
    change (wsum p ((a :: b :: l1) ++ [x])) with (contrib p a b + wsum p ((b :: l1) ++ [x])). lia.
Qed.
Lemma wsum_rotate p l1 l2 : wsum p (closed (l1 ++ l2)) = wsum p (closed (l2 ++ l1)).
Proof.
  unfold closed. destruct l1 as [|a l1]; [now rewrite app_nil_r|]. destruct l2 as [|b l2]; [now rewrite app_nil_r|].
  cbn [firstn app]. rewrite <- !app_assoc. cbn [app].
  change (a :: l1 ++ b :: l2 ++ [a]) with ((a :: l1) ++ b :: (l2 ++ [a])).
  change (b :: l2 ++ a :: l1 ++ [b]) with ((b :: l2) ++ a :: (l1 ++ [b])).
  rewrite (wsum_app p b (l2 ++ [a]) (a :: l1)), (wsum_app p a (l1 ++ [b]) (b :: l2)). cbn [app]. lia.
Qed.
Lemma wsum_rev p : forall l, wsum p (rev l) = - wsum p l.
Proof.
  induction l as [|a l IH]; [reflexivity|]. destruct l as [|b l]; [reflexivity|].
  change (rev (a :: b :: l)) with ((rev l ++ [b]) ++ [a]). rewrite <- app_assoc. cbn [app].
  rewrite (wsum_app p b [a] (rev l)). change (rev l ++ [b]) with (rev (b :: l)). rewrite IH.
  change (wsum p [b; a]) with (contrib p b a + 0). rewrite contrib_swap.
  change (wsum p (a :: b :: l)) with (contrib p a b + wsum p (b :: l)). lia.
Qed.
Lemma closed_rev_rotate a l : closed (rev (l ++ [a])) = rev (closed (a :: l)).
Proof. unfold closed. cbn [firstn app rev]. rewrite !rev_app_distr. reflexivity. Qed.
Lemma wsum_closed_rev p poly : wsum p (closed (rev poly)) = - wsum p (closed poly).
Proof.
  destruct poly as [|a l]; [reflexivity|]. rewrite <- wsum_rev, <- closed_rev_rotate.
  cbn [rev]. rewrite rev_app_distr. cbn [rev app]. rewrite (wsum_rotate p (rev l) [a]). reflexivity.
Qed.
Lemma wsum_cut p a b l1 l2 :
  wsum p (closed (a :: l1 ++ b :: l2)) = wsum p (closed (a :: l1 ++ [b])) + wsum p (closed (a :: b :: l2)).
Proof.
  unfold closed. cbn [firstn app]. rewrite <- !app_assoc. cbn [app].
  change (a :: l1 ++ b :: l2 ++ [a]) with ((a :: l1) ++ b :: (l2 ++ [a])).
  change (a :: l1 ++ [b; a]) with ((a :: l1) ++ b :: [a]).
  change (a :: b :: l2 ++ [a]) with ([a] ++ b :: (l2 ++ [a])).
  rewrite (wsum_app p b (l2 ++ [a]) (a :: l1)), (wsum_app p b [a] (a :: l1)), (wsum_app p b (l2 ++ [a]) [a]).
  change (wsum p ([a] ++ [b])) with (contrib p a b + 0). change (wsum p [b; a]) with (contrib p b a + 0).
  rewrite (contrib_swap p a b). lia.
Qed.

(** Edges of the rotated and of the reversed polygon. *)
Lemma path_edge_app x l1 l2 a b : path_edge (l1 ++ x :: l2) a b <-> path_edge (l1 ++ [x]) a b \/ path_edge (x :: l2) a b.
Proof.
  induction l1 as [|y l1 IH]; cbn [app].
  - split; [auto|]. intros [H|H]; auto. apply path_edge_cons in H as [[_ [r E]]|H]; [discriminate | now apply path_edge_nil in H].
  - rewrite (path_edge_cons y (l1 ++ x :: l2)), (path_edge_cons y (l1 ++ [x])), IH.
    assert (E : (exists r, l1 ++ x :: l2 = b :: r) <-> (exists r, l1 ++ [x] = b :: r)).
    { destruct l1 as [|z l1]; cbn [app]; split; intros [r E]; injection E as -> _; eauto. }
    rewrite E. tauto.
Qed.
Lemma poly_edge_rotate l1 l2 a b : poly_edge (l1 ++ l2) a b <-> poly_edge (l2 ++ l1) a b.
Proof.
  unfold poly_edge, closed. destruct l1 as [|u l1]; [rewrite app_nil_r; tauto|].
  destruct l2 as [|v l2]; [rewrite app_nil_r; tauto|].
  cbn [firstn app]. rewrite <- !app_assoc. cbn [app].
  change (u :: l1 ++ v :: l2 ++ [u]) with ((u :: l1) ++ v :: (l2 ++ [u])).
  change (v :: l2 ++ u :: l1 ++ [v]) with ((v :: l2) ++ u :: (l1 ++ [v])).
  rewrite (path_edge_app v (u :: l1) (l2 ++ [u])), (path_edge_app u (v :: l2) (l1 ++ [v])). cbn [app]. tauto.
Qed.
Lemma path_edge_rev l a b : path_edge (rev l) a b <-> path_edge l b a.
Proof.
  assert (K : forall l a b, path_edge l a b -> path_edge (rev l) b a).
  { clear. intros l a b (l1 & l2 & ->). exists (rev l2), (rev l1). rewrite rev_app_distr. cbn.
    rewrite <- !app_assoc. reflexivity. }
  split; intros H; [rewrite <- (rev_involutive l) | ]; auto.
Qed.
Lemma poly_edge_rev poly a b : poly_edge (rev poly) a b <-> poly_edge poly b a.
Proof.
  destruct poly as [|x l]; [cbn; split; intros H; now apply path_edge_nil in H|].
  unfold poly_edge at 2. rewrite <- path_edge_rev, <- closed_rev_rotate.
  rewrite rev_app_distr. cbn [rev app]. rewrite (poly_edge_rotate (rev l) [x]). reflexivity.
Qed.
Theorem winding_rotate p l1 l2 : winding_number p (l1 ++ l2) = winding_number p (l2 ++ l1).
Proof.
  pose proof (winding_spec p (l1 ++ l2)) as A. pose proof (winding_spec p (l2 ++ l1)) as B.
  destruct (winding_number p (l1 ++ l2)) as [|r], (winding_number p (l2 ++ l1)) as [|s]; auto.
  - destruct A as (a & b & H & O). apply poly_edge_rotate in H. destruct B as [_ B]. now apply B in H.
  - destruct B as (a & b & H & O). apply poly_edge_rotate in H. destruct A as [_ A]. now apply A in H.
  - destruct A as [-> _], B as [-> _]. f_equal. apply wsum_rotate.
Qed.
Definition wneg (w : winding) : winding := match w with Boundary => Boundary | Wind n => Wind (- n) end.
Theorem winding_rev p poly : winding_number p (rev poly) = wneg (winding_number p poly).
Proof.
  pose proof (winding_spec p (rev poly)) as A. pose proof (winding_spec p poly) as B.
  destruct (winding_number p (rev poly)) as [|r], (winding_number p poly) as [|s]; auto; cbn.
  - destruct A as (a & b & H & O). apply (proj1 (poly_edge_rev poly a b)) in H. destruct B as [_ B]. apply on_seg_sym in O. now apply B in H.
  - destruct B as (a & b & H & O). apply (proj2 (poly_edge_rev poly b a)) in H. destruct A as [_ A]. apply on_seg_sym in O. now apply A in H.
  - destruct A as [-> _], B as [-> _]. f_equal. apply wsum_closed_rev.
Qed.
