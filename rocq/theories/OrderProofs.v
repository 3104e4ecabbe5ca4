(** Orders of the vertices of a depth-first search tree (graph/traversal/order.hpp). *)
From Coq Require Import ZArith List Bool PeanoNat Lia Permutation.
From Verif Require Import Outcome GraphModel DfsProofs DfsResults.
Import ListNotations.

(** ** Specification: rooted ordered trees *)
Inductive rtree := Node (v : nat) (cs : list rtree).
Definition root (t : rtree) : nat := let 'Node u _ := t in u.
Definition children (t : rtree) : list rtree := let 'Node _ cs := t in cs.
Fixpoint pre (t : rtree) : list nat := let 'Node u cs := t in u :: flat_map pre cs.
Fixpoint post (t : rtree) : list nat := let 'Node u cs := t in flat_map post cs ++ [u].
(** A vertex comes between each pair of children or once after them if there
    are less than two. *)
Fixpoint ino (t : rtree) : list nat :=
  let 'Node u cs := t in
  match cs with
  | [] => [u]
  | c :: cs => ino c ++ match cs with [] => [u] | _ => flat_map (fun c => u :: ino c) cs end
  end.
(** All the children are targets of edges. *)
Inductive tree_arcs (g : graph) : rtree -> Prop :=
| ta_node u cs : Forall (fun c => arc g u (root c)) cs -> Forall (tree_arcs g) cs -> tree_arcs g (Node u cs).
(** The edges from a vertex of the tree are those to its children, in order. *)
Inductive represents (g : graph) : rtree -> Prop :=
| rep_node u cs : map e_tgt (g_out g u) = map root cs -> Forall (represents g) cs -> represents g (Node u cs).
(** At most two children. *)
Inductive binary : rtree -> Prop :=
| bin_node u cs : length cs <= 2 -> Forall binary cs -> binary (Node u cs).

(** ** Trees *)
Lemma rtree_ind' (P : rtree -> Prop) : (forall u cs, Forall P cs -> P (Node u cs)) -> forall t, P t.
Proof.
  intros H. fix IH 1. intros [u cs]. apply H. induction cs as [|c cs IHc]; constructor; auto.
Qed.
Lemma pre_pos t : 1 <= length (pre t). Proof. destruct t. cbn. lia. Qed.
Lemma root_pre t : In (root t) (pre t). Proof. destruct t. now left. Qed.
Lemma ino_binary t : binary t -> Permutation (ino t) (pre t).
Proof.
  induction t as [u cs IH] using rtree_ind'. intros H. inversion_clear H as [? ? L F]. cbn.
  destruct cs as [|a [|b [|c cs]]]; cbn in *; [reflexivity | | | lia].
  - inversion_clear IH as [|? ? P _]. inversion_clear F as [|? ? Q _]. rewrite (P Q), app_nil_r.
    symmetry. apply Permutation_cons_append.
  - inversion_clear IH as [|? ? P IH']. inversion_clear IH' as [|? ? P' _].
    inversion_clear F as [|? ? Q F']. inversion_clear F' as [|? ? Q' _].
    rewrite (P Q), !app_nil_r, (P' Q'). symmetry. apply Permutation_middle.
Qed.
Lemma ino_in t v : In v (ino t) <-> In v (pre t).
Proof.
  induction t as [u cs IH] using rtree_ind'. cbn. destruct cs as [|a cs]; [reflexivity|].
  inversion_clear IH as [|? ? Ha Hc]. rewrite in_app_iff, Ha. cbn. rewrite in_app_iff.
  destruct cs as [|b cs].
  - cbn. tauto.
  - rewrite !in_flat_map. split.
    + intros [H|(x & Hx & H)]; [tauto|]. destruct H as [H|H]; [now left|]. right. right. exists x. split; [auto|].
      rewrite Forall_forall in Hc. now apply Hc.
    + intros [<-|[H|(x & Hx & H)]]; [right; exists b; split; now left | now left | right].
      exists x. split; [auto|]. right. rewrite Forall_forall in Hc. now apply Hc.
Qed.
Lemma ino_min t : length (pre t) <= length (ino t).
Proof.
  induction t as [u cs IH] using rtree_ind'. cbn. destruct cs as [|a cs]; [cbn; lia|].
  inversion_clear IH as [|? ? Ha Hc]. cbn. rewrite !app_length.
  assert (length (flat_map pre cs) + length cs <= length (flat_map (fun c => u :: ino c) cs)).
  { clear Ha. induction Hc as [|c cs Hc _ IH]; [cbn; lia|]. cbn in *. rewrite !app_length. lia. }
  destruct cs as [|b cs]; cbn in *; lia.
Qed.
Lemma ino_max t : length (ino t) <= Nat.max (length (pre t)) (2 * length (pre t) - 3).
Proof.
  induction t as [u cs IH] using rtree_ind'. cbn [ino pre]. destruct cs as [|a cs]; [cbn [flat_map length]; lia|].
  inversion_clear IH as [|? ? Ha Hc]. cbn [flat_map length]. rewrite !app_length.
  assert (length (flat_map (fun c => u :: ino c) cs) <= 2 * length (flat_map pre cs)).
  { clear Ha. induction Hc as [|c cs Hc _ IH]; [cbn; lia|]. cbn [flat_map app length] in *. rewrite !app_length.
    pose proof (pre_pos c). lia. }
  pose proof (pre_pos a). destruct cs as [|b cs]; [cbn [flat_map length app] in *; lia|].
  assert (1 <= length (flat_map pre (b :: cs))).
  { cbn [flat_map]. rewrite app_length. pose proof (pre_pos b). lia. }
  lia.
Qed.

(** ** The output of the code *)
(** What remains to be written after [k] children. *)
Fixpoint rest (k : Z) (u : nat) (cs : list rtree) : list nat :=
  match cs with
  | [] => if (k <? 2)%Z then [u] else []
  | c :: cs => (if (0 <? k)%Z then [u] else []) ++ ino c ++ rest (k + 1) u cs
  end.
Lemma rest_pos u cs : forall k, (2 <= k)%Z -> rest k u cs = flat_map (fun c => u :: ino c) cs.
Proof.
  induction cs as [|c cs IH]; intros k Hk; cbn.
  - destruct (Z.ltb_spec k 2); [lia | reflexivity].
  - destruct (Z.ltb_spec 0 k); [|lia]. cbn. now rewrite IH by lia.
Qed.
Lemma rest_ino u cs : rest 0 u cs = ino (Node u cs).
Proof.
  destruct cs as [|a cs]; [reflexivity|]. cbn. f_equal. destruct cs as [|b cs]; [reflexivity|].
  cbn. now rewrite rest_pos by lia.
Qed.

Local Notation P := (inorder_printer true).
Lemma char_id z : (-128 <= z < 128)%Z -> char_of true z = z.
Proof. intros H. unfold char_of. rewrite Z.mod_small by lia. lia. Qed.

Section Tree.
  Variable g : graph.
  Hypothesis wf : wf_graph g.
  Lemma visit_scan_tree :
    (forall u D ev D', visit g u D ev D' -> ~ In u D -> exists t, root t = u /\ tree_arcs g t /\
       starts ev = pre t /\ finishes ev = post t /\
       (forall o m, exists m', crun P ev (o, m) = (o ++ ino t, m') /\ forall v, In v D -> m' v = m v) /\
       (forall t0, represents g t0 -> root t0 = u -> NoDup (pre t0) -> (forall x, In x (pre t0) -> ~ In x D) -> t = t0)) /\
    (forall u es D ev D', scan_es g u es D ev D' -> In u D -> incl es (g_out g u) -> exists cs,
       Forall (fun c => arc g u (root c)) cs /\ Forall (tree_arcs g) cs /\
       starts ev = flat_map pre cs /\ finishes ev = flat_map post cs ++ [u] /\
       (forall k o m, (0 <= k)%Z -> m u = Z.min k 2 ->
          exists m', crun P ev (o, m) = (o ++ rest k u cs, m') /\ forall v, In v D -> v <> u -> m' v = m v) /\
       (forall cs0, map e_tgt es = map root cs0 -> Forall (represents g) cs0 -> NoDup (flat_map pre cs0) ->
          (forall x, In x (flat_map pre cs0) -> ~ In x D) -> cs = cs0)).
  Proof.
    apply visit_scan_ind.
    - intros u D t D' H IH Hu. destruct IH as (cs & A1 & A2 & A3 & A4 & A5 & A6); [now left | apply incl_refl |].
      exists (Node u cs). split; [reflexivity|]. split; [now constructor|].
      split; [cbn; f_equal; exact A3|]. split; [exact A4|]. split.
      + intros o m. destruct (A5 0%Z o (upd m u 0%Z)) as (m' & E & F); [lia | now rewrite upd_same |].
        exists m'. split; [rewrite <- rest_ino; exact E|]. intros v Hv. assert (v <> u) by (intros ->; contradiction).
        rewrite F by (auto; now right). now rewrite upd_other.
      + intros [u0 cs0] R E N F. cbn in E. subst u0. f_equal. inversion R as [? ? M Rc]; subst. cbn in N. inversion_clear N as [|? ? N1 N2].
        apply A6; auto. intros x Hx [<-|Q]; [now apply N1 | now apply (F x); [right|]].
    - intros u D Hu _. exists []. split; [constructor|]. split; [constructor|]. split; [reflexivity|]. split; [reflexivity|]. split.
      + intros k o m Hk Hm. exists m. split; [|auto]. cbn. rewrite Hm. destruct (Z.ltb_spec k 2), (Z.ltb_spec (Z.min k 2) 2); try lia; [|now rewrite app_nil_r]. reflexivity.
      + intros [|c cs0]; easy.
    - intros u e es D t D' Hi H IH Hu Hes. assert (He : In e (g_out g u)) by (apply Hes; now left).
      destruct (IH Hu) as (cs & A1 & A2 & A3 & A4 & A5 & A6); [intros x Hx; apply Hes; now right|].
      exists cs. do 4 (split; [assumption|]). split; [exact A5|].
      intros [|c cs0] M R N F; [easy|]. exfalso. cbn in M. injection M as M _. apply (F (e_tgt e)); [|exact Hi].
      rewrite M. cbn. apply in_app_iff. left. apply root_pre.
    - intros u e es D t1 D1 t2 D' Hn H1 IH1 H2 IH2 Hu Hes. assert (He : In e (g_out g u)) by (apply Hes; now left).
      destruct (wf _ _ He) as (E1 & E2). pose proof (visit_incl _ _ _ _ _ H1) as ID.
      destruct (IH1 Hn) as (c & B1 & B2 & B3 & B4 & B5 & B6).
      destruct (IH2 (ID u Hu)) as (cs & A1 & A2 & A3 & A4 & A5 & A6); [intros x Hx; apply Hes; now right|].
      exists (c :: cs). split; [constructor; [rewrite B1; now exists e | assumption]|]. split; [now constructor|].
      split; [cbn; change (starts (t1 ++ ETreeFinish e :: t2) = pre c ++ flat_map pre cs); rewrite starts_app, B3; f_equal; exact A3|].
      split; [change (finishes (t1 ++ ETreeFinish e :: t2) = (post c ++ flat_map post cs) ++ [u]); rewrite finishes_app, B4, <- app_assoc; f_equal; exact A4|].
      split.
      + intros k o m Hk Hm.
        assert (S1 : c_step P (ETreeStart e) (o, m) = (o ++ (if (0 <? k)%Z then [u] else []), if (m u <? 2)%Z then upd m u (m u + 1)%Z else m)).
        { cbn -[Z.add Z.sub Z.modulo]. rewrite E1. f_equal.
          - rewrite Hm. destruct (Z.ltb_spec 0 k), (Z.ltb_spec 0 (Z.min k 2)); try lia; [reflexivity | now rewrite app_nil_r].
          - destruct (Z.ltb_spec (m u) 2); [|reflexivity]. fold (char_of true (m u + 1)). rewrite char_id by lia. reflexivity. }
        rewrite crun_cons, S1, crun_app. set (o1 := o ++ _). set (m1 := if (m u <? 2)%Z then _ else m).
        destruct (B5 o1 m1) as (m2 & Q1 & Q2). rewrite Q1. rewrite crun_cons. change (c_step P (ETreeFinish e) ?x) with x.
        assert (M1 : m1 u = Z.min (k + 1) 2).
        { unfold m1. destruct (Z.ltb_spec (m u) 2); [rewrite upd_same|]; lia. }
        destruct (A5 (k + 1)%Z (o1 ++ ino c) m2) as (m3 & Q3 & Q4); [lia | now rewrite Q2 |].
        exists m3. split.
        * rewrite Q3. cbn [rest]. unfold o1. now rewrite !app_assoc.
        * intros v Hv Hvu. rewrite Q4 by auto. rewrite Q2 by auto. unfold m1. destruct (m u <? 2)%Z; [|reflexivity]. now rewrite upd_other.
      + intros [|c0 cs0] M R N F; [easy|]. cbn in M. injection M as M1 M2. inversion_clear R as [|? ? R1 R2]. cbn in N, F.
        assert (NN : NoDup (pre c0) /\ NoDup (flat_map pre cs0) /\ forall x, In x (pre c0) -> ~ In x (flat_map pre cs0)).
        { clear - N. revert N. generalize (flat_map pre cs0). induction (pre c0) as [|x l IH]; intros r N; [repeat split; auto; constructor|].
          cbn in N. inversion_clear N as [|? ? N1 N2]. destruct (IH r N2) as (X & Y & Z). rewrite in_app_iff in N1.
          split; [constructor; tauto|]. split; [exact Y|]. intros y [<-|Hy]; [tauto | auto]. }
        destruct NN as (N1 & N2 & N3).
        assert (c = c0) as <-.
        { apply B6; auto. intros x Hx. apply F. apply in_app_iff. now left. }
        f_equal. apply A6; auto. intros x Hx Q. apply (visit_in _ _ _ _ _ _ H1) in Q. destruct Q as [Q|Q].
        * rewrite <- (proj1 (proj1 (visit_scan_starts g) _ _ _ _ H1)), B3 in Q. now apply (N3 x).
        * apply (F x); [apply in_app_iff; now right | exact Q].
  Qed.
End Tree.

(** ** The search of inorder *)
Definition order_ok (g : graph) (D : list nat) (s : list nat * (nat -> Z)) : Prop :=
  (forall v, In v D -> (0 <= snd s v <= 2)%Z) /\ forall v, v < g_n g -> ~ In v D -> snd s v = (-1)%Z.
Lemma order_disciplined g : disciplined g (to_visitor P) (order_ok g).
Proof.
  assert (A : forall D s u, order_ok g D s -> order_ok g (u :: D) (c_step P (EDiscover u) s)).
  { intros D [o m] u (H1 & H2). split; cbn.
    - intros v [<-|Hv]; [rewrite upd_same; lia|]. unfold upd. destruct (v =? u); [lia | now apply H1].
    - intros v L N. rewrite upd_other by (intros ->; tauto). apply H2; tauto. }
  assert (B : forall D s e, order_ok g D s -> In (e_src e) D -> order_ok g D (c_step P (ETreeStart e) s)).
  { intros D [o m] e (H1 & H2) Hs. specialize (H1 _ Hs) as Hm. cbn [snd] in *.
    assert (E : snd (c_step P (ETreeStart e) (o, m)) = if (m (e_src e) <? 2)%Z then upd m (e_src e) (m (e_src e) + 1)%Z else m).
    { cbn -[char_of Z.add]. destruct (Z.ltb_spec (m (e_src e)) 2); [|reflexivity]. now rewrite char_id by lia. }
    split; rewrite E; destruct (Z.ltb_spec (m (e_src e)) 2); auto.
    - intros v Hv. unfold upd. destruct (v =? e_src e); [lia | now apply H1].
    - intros v L N. rewrite upd_other by (intros ->; contradiction). now apply H2. }
  split.
  - intros D [o m] v (H1 & H2) L. cbn in *. rewrite negb_true_iff, Z.eqb_neq. split.
    + intros Q. destruct (in_dec Nat.eq_dec v D); [assumption|]. now destruct Q; apply H2.
    + intros Q. specialize (H1 v Q). lia.
  - intros D [o m] u H L N. apply (A D (o, m) u H).
  - intros D s e H Hs L N. change (order_ok g (e_tgt e :: D) (c_step P (EStart (e_tgt e)) (c_step P (EDiscover (e_tgt e)) (c_step P (ETreeStart e) s)))).
    pose proof (A _ _ (e_tgt e) (B _ _ e H Hs)) as Q.
    destruct (c_step P (EDiscover (e_tgt e)) (c_step P (ETreeStart e) s)) as [o m]. exact Q.
  - intros D [o m] e H _ _. exact H.
  - intros D [o m] e H _ _. exact H.
  - intros D [o m] u H _. exact H.
  - intros D [o m] u H _. exact H.
Qed.
Lemma order_init sg g o m : crun (inorder_printer sg) (init_events g) (o, m) = (o, fold_left (fun m u => upd m u (char_of sg (-1))) (vertices g) m).
Proof. unfold init_events. revert m. induction (vertices g) as [|u us IH]; intros m; [reflexivity | apply IH]. Qed.

Theorem orders_ok g s : wf_graph g -> s < g_n g ->
  exists t, root t = s /\ tree_arcs g t /\ NoDup (pre t) /\ (forall v, In v (pre t) <-> reach g s v) /\
    (forall m m', exists k, forall f, k <= f ->
      preorder f g m s = Ok (pre t) /\ postorder f g m s = Ok (post t) /\ inorder true f g m' s = Ok (ino t)) /\
    (forall t0, represents g t0 -> root t0 = s -> NoDup (pre t0) -> t = t0).
Proof.
  intros wf Hs. destruct (dfs_from_events g s wf Hs) as (ev & D' & V & E).
  destruct (proj1 (visit_scan_tree g wf) _ _ _ _ V) as (t & A1 & A2 & A3 & A4 & A5 & A6); [easy|].
  destruct (proj1 (visit_scan_starts g) _ _ _ _ V) as (S1 & _).
  exists t. split; [exact A1|]. split; [exact A2|]. rewrite <- A3, S1.
  split; [apply (proj1 (visit_scan_new g) _ _ _ _ V); easy|]. split.
  { intros v. rewrite (white_path g s [] ev D' v V) by easy. apply reach_avoid_nil. }
  split; [|intros t0 R E0 N; apply A6; auto].
  intros m m'.
  destruct (E _ start_printer [] m eq_refl) as (m1 & k1 & E1). destruct (E _ finish_printer [] m eq_refl) as (m2 & k2 & E2).
  destruct (dfs_visit_run (to_visitor P) g (order_ok g) wf (order_disciplined g) s [] ev D' (init_all (to_visitor P) g ([], m')) V Hs) as (_ & k3 & E3).
  { easy. }
  { rewrite init_all_run, run_to_visitor, order_init. split; [easy|]. intros v Hv _. cbn [snd]. rewrite fold_upd by now apply in_vertices. reflexivity. }
  exists (k1 + k2 + k3). intros f Hf. split; [|split].
  - unfold preorder. rewrite E1 by lia. cbn [omap bind fst]. rewrite start_printer_run, starts_app, init_starts. cbn [app].
    change (starts (ESearchStart s :: ev ++ [ESearchFinish (Some s)])) with (starts (ev ++ [ESearchFinish (Some s)])).
    rewrite starts_app. cbn. now rewrite app_nil_r, S1.
  - unfold postorder. rewrite E2 by lia. cbn [omap bind fst]. rewrite finish_printer_run, finishes_app, init_finishes. cbn [app].
    change (finishes (ESearchStart s :: ev ++ [ESearchFinish (Some s)])) with (finishes (ev ++ [ESearchFinish (Some s)])).
    rewrite finishes_app. cbn. now rewrite app_nil_r, A4.
  - unfold inorder, dfs_from. rewrite E3 by lia. cbn [omap bind fst]. rewrite init_all_run, !run_to_visitor, order_init, crun_cons, crun_app.
    change (c_step P (ESearchStart s) ?x) with x. destruct (A5 [] (fold_left (fun m u => upd m u (char_of true (-1))) (vertices g) m')) as (m3 & Q & _).
    rewrite Q. reflexivity.
Qed.

(** With an unsigned char all vertices look discovered. *)
Theorem inorder_unsigned g m s : wf_graph g -> s < g_n g ->
  exists k, forall f, k <= f -> inorder false f g m s = Ok [s].
Proof.
  intros wf Hs. exists (S (length (g_out g s))). intros f Hf. unfold inorder, dfs_from, dfs_visit.
  rewrite init_all_run, run_to_visitor, order_init. set (m1 := fold_left _ _ m).
  assert (M1 : forall v, v < g_n g -> m1 v = 255%Z).
  { intros v Hv. unfold m1. now rewrite fold_upd by now apply in_vertices. }
  cbv zeta. unfold always_false at 1. set (s1 := v_step _ (EStart s) _).
  assert (E1 : s1 = ([], upd m1 s 0%Z)) by reflexivity. clearbody s1. subst s1.
  assert (L : forall es f, length es < f -> incl es (g_out g s) ->
    dfs_loop (to_visitor (inorder_printer false)) g always_false f ([], upd m1 s 0%Z) s es [] = Ok (([s], upd m1 s 0%Z), s)).
  { induction es as [|e es IH]; intros [|f'] L I; cbn [length] in L; try lia.
    - cbn. now rewrite upd_same.
    - cbn [dfs_loop]. assert (He : In e (g_out g s)) by (apply I; now left). destruct (wf _ _ He) as (_ & E2).
      replace (v_disc (to_visitor (inorder_printer false)) ([], upd m1 s 0%Z) (e_tgt e)) with true.
      + apply (IH f'); [lia|]. intros x Hx. apply I. now right.
      + cbn. unfold upd. destruct (e_tgt e =? s); [reflexivity|]. now rewrite M1. }
  rewrite L by (lia || apply incl_refl). reflexivity.
Qed.
