(** find_articulation_points misses no cut vertex. *)
From Coq Require Import ZArith List Bool PeanoNat Lia Permutation.
From Verif Require Import Outcome GraphModel DfsProofs DfsResults TarjanProofs BridgeProofs.
Import ListNotations.
Local Open Scope Z_scope.

(** ** Specification *)
(** Removing [u] separates two vertices that were connected. *)
Definition cut_vertex (g : graph) (u : nat) : Prop :=
  exists v w, v <> u /\ w <> u /\ reach g v w /\ ~ reach_avoid g [u] v w.

(** The neighbours of [u] stay connected. *)
Definition cut_free (g : graph) (u : nat) : Prop :=
  forall x y, arc g u x -> arc g u y -> x <> u -> y <> u -> reach_avoid g [u] x y.
Lemma not_in_one (x u : nat) : x <> u -> ~ In x [u].
Proof. intros H [->|[]]. now apply H. Qed.
Lemma cut_free_ok g u : symmetric g -> cut_free g u -> ~ cut_vertex g u.
Proof.
  intros S C (v & w & Hv & Hw & R & N). apply N. clear N.
  assert (forall x, reach g v x -> (x <> u -> reach_avoid g [u] v x) /\ (x = u -> exists y, arc g u y /\ y <> u /\ reach_avoid g [u] v y)) as H.
  { induction 1 as [|x z R0 IH Ha].
    - split; [intros _; apply ra_refl; now apply not_in_one | contradiction].
    - destruct IH as (A & B). destruct (Nat.eq_dec x u) as [->|nx], (Nat.eq_dec z u) as [->|nz].
      + auto.
      + destruct (B eq_refl) as (y & Hy & Hyu & Ry). split; [intros _|congruence].
        apply reach_avoid_trans with y; [assumption | now apply C].
      + split; [congruence|]. intros _. exists x. split; [now apply S | auto].
      + split; [|congruence]. intros _. eapply ra_step; [now apply A | exact Ha | now apply not_in_one]. }
  now apply H.
Qed.

Lemma times_before T X D u v : times T (X ++ D) -> In u X -> In v D -> T v < T u.
Proof.
  intros HT Hu Hv. pose proof (times_range _ _ _ (times_app _ _ _ HT) Hv) as Hr.
  induction X as [|x X IH]; [easy|]. destruct HT as (A & B). destruct Hu as [->|Hu]; [|auto].
  rewrite A. cbn [length app]. rewrite app_length. lia.
Qed.

Section Artic.
  Variable g : graph.
  Hypothesis wf : wf_graph g.
  Hypothesis sym : symmetric g.
  Variable T : nat -> Z.
  Local Notation V := artic_visitor.

  Record ainv (D : list nat) (s : artic) : Prop := {
    ai_now : ap_now s = Z.of_nat (length D);
    ai_time v : In v D -> ap_time s v = T v }.
  Definition fine (s : artic) (u : nat) : Prop := ap_map s u = true \/ cut_free g u.
  (** The number kept for [u] comes from an edge of [u] itself. *)
  Definition low_ok (u : nat) (G : list nat) (s : artic) : Prop :=
    ap_low s u = T u \/ exists e, In e (g_out g u) /\ In (e_tgt e) G /\ T (e_tgt e) = ap_low s u.
  (** What is known of the subtree [X] of [u]. *)
  Definition tree_ok (u : nat) (G X : list nat) (s : artic) : Prop :=
    match G with
    | [] => 0 <= ap_children s /\ (ap_children s = 0 -> forall x, In x X -> x = u) /\
            (ap_children s <= 1 -> forall x y, In x X -> In y X -> x <> u -> y <> u -> reach_avoid g [u] x y)
    | p :: _ => ap_map s u = true \/ forall x, In x X -> x <> u -> reach_avoid g [u] x p
    end.
  Definition same_tree (G : list nat) (s s' : artic) : Prop :=
    ap_root s' = ap_root s /\ (G <> [] -> ap_children s' = ap_children s) /\
    forall v, ap_map s v = true -> ap_map s' v = true.

  Lemma visit_scan_artic r :
    (forall u D t D', visit g u D t D' -> ~ In u D -> (u < g_n g)%nat -> times T D' ->
       forall G s, ainv D s -> ~ In u G -> incl G D -> chain g (u :: G) -> (forall b v, In b D -> ~ In b G -> arc g b v -> In v D) ->
       ap_root s = r -> (match G with [] => u = r /\ ap_children s = 0 | _ => In r G end) ->
       let s' := run V t s in
       ainv D' s' /\ low_ok u G s' /\ tree_ok u G (rev (discovers t)) s' /\ same_tree G s s' /\
       (forall v, In v D -> ap_low s' v = ap_low s v) /\
       (forall x, In x (rev (discovers t)) -> (x <> u \/ G <> []) -> fine s' x)) /\
    (forall u es D t D', scan_es g u es D t D' -> times T D' ->
       forall G s D0 X Q, Q ++ es = g_out g u -> D = X ++ D0 -> In u X -> ~ In u D0 ->
       ainv D s -> ~ In u G -> incl G D0 -> chain g (u :: G) -> (forall b v, In b D -> ~ In b (u :: G) -> arc g b v -> In v D) ->
       (forall b v, In b D0 -> ~ In b G -> arc g b v -> In v D0) ->
       ap_root s = r -> (match G with [] => u = r | _ => In r G end) ->
       low_ok u G s -> tree_ok u G X s -> (forall x, In x X -> x <> u -> fine s x) -> (forall e, In e Q -> In (e_tgt e) X \/ In (e_tgt e) G) -> (forall x, In x X -> T u <= T x) ->
       let s' := run V t s in
       ainv D' s' /\ low_ok u G s' /\ tree_ok u G (rev (discovers t) ++ X) s' /\ same_tree G s s' /\
       (forall v, In v D -> v <> u -> ap_low s' v = ap_low s v) /\
       (forall x, In x (rev (discovers t) ++ X) -> (x <> u \/ G <> []) -> fine s' x)).
  Proof.
    apply visit_scan_ind.
    - intros u D t D' H IH Hu Lu HT G s I HuG GD HC Cl Rr Hr. cbv zeta.
      change (run V (EDiscover u :: EStart u :: t) s) with (run V t (v_step V (EStart u) s)).
      set (s1 := v_step V (EStart u) s). pose proof (scan_times _ _ _ _ _ _ _ H HT) as HTu.
      pose proof (times_head _ _ _ HTu) as Tu.
      assert (ainv (u :: D) s1) as I1.
      { destruct I. split; cbn [ap_now ap_time s1 v_step artic_visitor to_visitor c_step articulation_finder].
        - cbn [length]. lia.
        - intros v [<-|Hv]; [rewrite upd_same; lia|]. rewrite upd_other; [auto|]. intros ->. contradiction. }
      assert (low_ok u G s1) as L1 by (left; cbn; rewrite upd_same, (ai_now _ _ I); lia).
      change (rev (discovers (EDiscover u :: EStart u :: t))) with (rev (discovers t) ++ [u]).
      destruct (IH HT G s1 D [u] []) as (A1 & A2 & A3 & A4 & A5 & A6); auto.
      + now left.
      + intros b v [<-|Hb] Hg Ha; [destruct Hg; now left|]. right. apply (Cl b v); auto. intro; apply Hg; now right.
      + destruct G; tauto.
      + destruct G as [|p G'].
        * destruct Hr as (_ & Hr). cbn. rewrite Hr. split; [lia|]. split; [intros _ x [<-|[]]; reflexivity|].
          intros _ x y [<-|[]]. congruence.
        * right. intros x [<-|[]]. congruence.
      + intros x [<-|[]]. congruence.
      + easy.
      + intros x [<-|[]]. lia.
      + split; [assumption|]. split; [assumption|]. split; [assumption|]. split; [assumption|]. split; [|assumption].
        intros v Hv. assert (v <> u) by (intros ->; contradiction). rewrite A5; [|now right | assumption]. cbn. now apply upd_other.
    - intros u D HT G s D0 X Q EQ -> HuX HuD I HuG GD HC Cl Bl Rr Hr Lo Tr Fi Qd TX. cbv zeta.
      change (run V [EFinish u] s) with s. change (rev (discovers [EFinish u]) ++ X) with X. rewrite app_nil_r in EQ.
      split; [assumption|]. split; [assumption|]. split; [assumption|]. split; [split; [reflexivity|auto]|]. split; [auto|].
      intros x Hx Hc. destruct (Nat.eq_dec x u) as [->|n]; [|auto]. destruct Hc as [?|Hc]; [congruence|].
      destruct G as [|p G']; [congruence|]. destruct Tr as [?|Tr]; [now left|]. right.
      assert (forall y, arc g u y -> y <> u -> reach_avoid g [u] y p) as Hp.
      { intros y (e & He & <-) Hy. destruct (Qd e) as [?|Hg]; [now rewrite EQ | now apply Tr |].
        destruct HC as (_ & HC). apply chain_reach with G'; auto. intros z Hz [<-|[]]. contradiction. }
      intros y z Hy Hz Hyu Hzu. apply reach_avoid_trans with p; [auto|]. apply reach_avoid_sym; auto.
    - intros u e es D t D' Hi H IH HT G s D0 X Q EQ -> HuX HuD I HuG GD HC Cl Bl Rr Hr Lo Tr Fi Qd TX. cbv zeta.
      change (run V (ENonTree e :: t) s) with (run V t (v_step V (ENonTree e) s)).
      change (discovers (ENonTree e :: t)) with (discovers t). set (s1 := v_step V (ENonTree e) s).
      assert (In e (g_out g u)) as He by (rewrite <- EQ; apply in_app_iff; right; now left).
      destruct (wf _ _ He) as (E1 & E2).
      assert (In (e_tgt e) X \/ In (e_tgt e) G) as Hb.
      { apply in_app_iff in Hi. destruct Hi as [?|Hx]; [now left|]. right.
        destruct (in_dec Nat.eq_dec (e_tgt e) G) as [?|n]; [assumption|]. destruct HuD. apply (Bl (e_tgt e) u Hx n). apply sym. now exists e. }
      pose proof (scan_times _ _ _ _ _ _ _ H HT) as HTD.
      assert (ap_low s u <= T u) as Lle.
      { destruct Lo as [->|(e' & _ & Hg & <-)]; [lia|]. pose proof (times_before T X D0 u _ HTD HuX (GD _ Hg)). lia. }
      assert (ap_map s1 = ap_map s /\ ap_time s1 = ap_time s /\ ap_root s1 = ap_root s /\ ap_now s1 = ap_now s /\ ap_children s1 = ap_children s /\
        ap_low s1 = if T (e_tgt e) <? ap_low s u then upd (ap_low s) u (T (e_tgt e)) else ap_low s) as (B1 & B2 & B3 & B4 & B5 & B6).
      { unfold s1. cbn. rewrite E1, (ai_time _ _ I _ Hi). repeat split. }
      destruct (IH HT G s1 D0 X (Q ++ [e])) as (A1 & A2 & A3 & A4 & A5 & A6); auto.
      + rewrite <- app_assoc. exact EQ.
      + destruct I. split; [now rewrite B4 | now rewrite B2].
      + unfold low_ok. rewrite B6. destruct (Z.ltb_spec (T (e_tgt e)) (ap_low s u)) as [Hl|Hl]; [|assumption].
        rewrite upd_same. destruct Hb as [Hx|Hg]; [|right; exists e; auto].
        specialize (TX _ Hx). lia.
      + intros e' He'. apply in_app_iff in He'. destruct He' as [?|[<-|[]]]; auto.
      + split; [assumption|]. split; [assumption|]. split; [assumption|]. split; [|split; [|assumption]].
        * destruct A4 as (C1 & C2 & C3). split; [congruence|]. split; [intro; rewrite C2; auto|]. intros v Hv. apply C3. now rewrite B1.
        * intros v Hv Hn. rewrite A5 by assumption. rewrite B6. destruct (T (e_tgt e) <? ap_low s u); [now apply upd_other | reflexivity].
    - intros u e es D t1 D1 t2 D' Hn H1 IH1 H2 IH2 HT G s D0 X Q EQ -> HuX HuD I HuG GD HC Cl Bl Rr Hr Lo Tr Fi Qd TX. cbv zeta.
      set (D := X ++ D0) in *. assert (In u D) as Hu by (apply in_app_iff; now left).
      assert (In e (g_out g u)) as He by (rewrite <- EQ; apply in_app_iff; right; now left).
      destruct (wf _ _ He) as (E1 & E2). set (c := e_tgt e) in *.
      assert (run V (ETreeStart e :: t1 ++ ETreeFinish e :: t2) s = run V t2 (v_step V (ETreeFinish e) (run V t1 s))) as ->.
      { change (run V (t1 ++ ETreeFinish e :: t2) s = run V t2 (v_step V (ETreeFinish e) (run V t1 s))). now rewrite run_app. }
      change (discovers (ETreeStart e :: t1 ++ ETreeFinish e :: t2)) with (discovers (t1 ++ ETreeFinish e :: t2)).
      rewrite discovers_app. change (discovers (ETreeFinish e :: t2)) with (discovers t2).
      pose proof (scan_times _ _ _ _ _ _ _ H2 HT) as HT1.
      assert (incl (u :: G) D) as GD1.
      { intros b [<-|Hb]; [assumption|]. apply in_app_iff. right. auto. }
      assert (~ In c (u :: G)) as HcG by (intro Y; apply Hn; auto).
      assert (c <> u) as Hcu by (intros Y; apply HcG; left; auto).
      assert (arc g u c) as Ha by now exists e.
      destruct (IH1 Hn E2 HT1 (u :: G) s I HcG GD1 (conj Ha HC) Cl Rr) as (I1 & L1 & T1 & S1 & K1 & F1).
      { destruct G; [now left | now right]. }
      clear IH1. set (s1 := run V t1 s) in *. set (Xc := rev (discovers t1)) in *.
      assert (D1 = Xc ++ D) as ED1 by exact (proj1 (visit_scan_discovers g) _ _ _ _ H1).
      rewrite ED1 in HT1, I1.
      assert (In c Xc) as HcX by (apply -> in_rev; now apply (visit_discovers_root _ _ _ _ _ H1)).
      assert (forall x, In x Xc -> reach_avoid g D c x) as Wc.
      { intros x Hx. apply (white_path g c D t1 D1 x H1 Hn). now apply in_rev. }
      assert (forall x, In x Xc -> T u < T x) as TXc by (intros x Hx; now apply (times_before T Xc D)).
      assert (forall x, In x Xc -> x <> u) as Xu by (intros x Hx ->; specialize (TXc u Hx); lia).
      assert (incl [u] D) as uD by (intros x [<-|[]]; assumption).
      assert (forall x, In x Xc -> reach_avoid g [u] c x) as Wu by (intros x Hx; apply reach_avoid_mono with D; auto).
      destruct S1 as (S11 & S12 & S13). specialize (S12 ltac:(discriminate)).
      assert (ap_time s1 u = T u) as Tu by (apply (ai_time _ _ I1); apply in_app_iff; now right).
      set (s3 := v_step V (ETreeFinish e) s1).
      assert (ap_now s3 = ap_now s1 /\ ap_time s3 = ap_time s1 /\ ap_low s3 = ap_low s1 /\ ap_root s3 = ap_root s1 /\
        ap_map s3 = (if (T u <=? ap_low s1 c) && negb (u =? r)%nat then upd (ap_map s1) u true else ap_map s1) /\
        ap_children s3 = if (T u <=? ap_low s1 c) && (u =? r)%nat then ap_children s1 + 1 else ap_children s1) as (B1 & B2 & B3 & B4 & B5 & B6).
      { unfold s3. cbn [v_step artic_visitor to_visitor c_step articulation_finder]. rewrite E1, Tu. fold c. rewrite S11, Rr.
        destruct (T u <=? ap_low s1 c); [|cbn; repeat split; congruence].
        destruct (ap_pop_while _ _ _ _) as (m & st). cbn. destruct (u =? r)%nat; cbn; repeat split; congruence. }
      assert (forall v, ap_map s1 v = true -> ap_map s3 v = true) as Mono.
      { intros v Hv. rewrite B5. destruct ((T u <=? ap_low s1 c) && negb (u =? r)%nat); [|assumption].
        unfold upd. now destruct (v =? u)%nat. }
      assert (tree_ok u G (Xc ++ X) s3) as T3.
      { unfold tree_ok in *. destruct G as [|p G'].
        - subst u. destruct Tr as (K0 & K2 & K3). rewrite B6, S12, Nat.eqb_refl, andb_true_r.
          assert (T r <= ap_low s1 c) as Hl.
          { destruct L1 as [->|(e' & _ & [Hg|[]] & <-)]; [specialize (TXc c HcX); lia | rewrite <- Hg; lia]. }
          destruct (Z.leb_spec (T r) (ap_low s1 c)); [|lia]. split; [lia|]. split; [lia|].
          intros Hk x y Hx Hy Hxu Hyu. specialize (K2 ltac:(lia)).
          assert (forall z, In z (Xc ++ X) -> z <> r -> In z Xc) as Hz.
          { intros z Hz Hzr. apply in_app_iff in Hz. destruct Hz as [?|Hz]; [assumption|]. now apply K2 in Hz. }
          apply reach_avoid_trans with c; [apply reach_avoid_sym; auto | auto].
        - assert (u <> r) as Hur by (intros ->; contradiction).
          rewrite B5. apply Nat.eqb_neq in Hur as ->. rewrite andb_true_r.
          destruct (Z.leb_spec (T u) (ap_low s1 c)) as [Hl|Hl]; [left; apply upd_same|].
          destruct Tr as [Tr|Tr]; [left; auto|]. right. intros x Hx Hxu. apply in_app_iff in Hx. destruct Hx as [Hx|Hx]; [|auto].
          destruct L1 as [L1|(e' & He' & Hg & Te)]; [specialize (TXc c HcX); lia|].
          destruct Hg as [Hg|Hg]; [rewrite <- Hg in Te; lia|].
          apply reach_avoid_trans with c; [apply reach_avoid_sym; auto|].
          apply reach_avoid_trans with (e_tgt e').
          + eapply ra_step; [apply ra_refl; now apply not_in_one | now exists e' |]. intros [E|[]]. rewrite <- E in Hg. contradiction.
          + destruct HC as (_ & HC). apply chain_reach with G'; auto. intros z Hz [<-|[]]. contradiction. }
      assert (low_ok u G s3) as L3.
      { unfold low_ok. rewrite B3, K1 by assumption. assumption. }
      destruct (IH2 HT G s3 D0 (Xc ++ X) (Q ++ [e])) as (A1 & A2 & A3 & A4 & A5 & A6); auto.
      + rewrite <- app_assoc. exact EQ.
      + rewrite <- app_assoc. exact ED1.
      + apply in_app_iff. now right.
      + rewrite ED1. destruct I1. split; [now rewrite B1 | now rewrite B2].
      + intros b v Hb Hg Hbv. rewrite ED1 in Hb. apply in_app_iff in Hb. destruct Hb as [Hb|Hb].
        * apply in_rev in Hb. now apply (proj1 (visit_scan_closed g) _ _ _ _ H1 b).
        * rewrite ED1. apply in_app_iff. right. now apply (Cl b).
      + congruence.
      + intros x Hx Hxu. apply in_app_iff in Hx. destruct Hx as [Hx|Hx].
        * destruct (F1 x Hx) as [?|?]; [now right; discriminate | left; auto | now right].
        * destruct (Fi x Hx Hxu) as [?|?]; [left; auto | now right].
      + intros e' He'. apply in_app_iff in He'. destruct He' as [He'|[<-|[]]].
        * destruct (Qd e' He'); [left; apply in_app_iff; now right | now right].
        * left. apply in_app_iff. now left.
      + intros x Hx. apply in_app_iff in Hx. destruct Hx as [Hx|Hx]; [specialize (TXc x Hx); lia | auto].
      + assert (rev (discovers t2) ++ Xc ++ X = rev (discovers t1 ++ discovers t2) ++ X) as Er.
        { rewrite rev_app_distr, <- app_assoc. reflexivity. }
        rewrite Er in A3, A6. split; [assumption|]. split; [assumption|]. split; [assumption|]. split; [|split; [|assumption]].
        * destruct A4 as (C1 & C2 & C3). split; [congruence|]. split; [|intros v Hv; auto].
          intro Hg. rewrite C2 by assumption. rewrite B6, S12. destruct G as [|p G']; [congruence|].
          assert (u <> r) as Hur by (intros ->; contradiction). apply Nat.eqb_neq in Hur as ->. now rewrite andb_false_r.
        * intros v Hv Hvu. rewrite A5; [|rewrite ED1; apply in_app_iff; now right | assumption]. rewrite B3. auto.
  Qed.

  Lemma forest_artic rs D t D' : forest g rs D t D' -> (forall r, In r rs -> (r < g_n g)%nat) ->
    times T D' -> (forall b v, In b D -> arc g b v -> In v D) -> forall s, ainv D s -> (forall x, In x D -> fine s x) ->
    forall x, In x D' -> fine (run V t s) x.
  Proof.
    induction 1 as [D|r rs D t D' Hi F IH|r rs D t1 D1 t2 D' Hn H1 H2 IH]; intros Hr HT Cl s I Fi;
      [auto | apply IH; auto; intros; apply Hr; now right |].
    set (s0 := v_step V (ESearchStart r) s).
    assert (run V (ESearchStart r :: t1 ++ ESearchFinish (Some r) :: t2) s = run V t2 (v_step V (ESearchFinish (Some r)) (run V t1 s0))) as ->.
    { change (run V (t1 ++ ESearchFinish (Some r) :: t2) s0 = run V t2 (v_step V (ESearchFinish (Some r)) (run V t1 s0))). now rewrite run_app. }
    assert (times T D1) as HT1 by (destruct (forest_suffix _ _ _ _ _ H2) as (X & ->); now apply times_app in HT).
    destruct (proj1 (visit_scan_artic r) r D t1 D1 H1 Hn (Hr r (or_introl eq_refl)) HT1 [] s0) as (I1 & L1 & T1 & S1 & K1 & F1); try easy.
    { destruct I. now split. }
    { intros b v Hb _. now apply Cl. }
    set (s1 := run V t1 s0) in *.
    assert (ap_map (v_step V (ESearchFinish (Some r)) s1) = if 1 <? ap_children s1 then upd (ap_map s1) r true else ap_map s1) as Em.
    { cbn. now destruct (1 <? ap_children s1). }
    assert (forall v, ap_map s1 v = true -> ap_map (v_step V (ESearchFinish (Some r)) s1) v = true) as Mono.
    { intros v Hv. rewrite Em. destruct (1 <? ap_children s1); [|assumption]. unfold upd. now destruct (v =? r)%nat. }
    apply IH.
    - intros; apply Hr; now right.
    - assumption.
    - intros b v Hb Ha. apply (visit_in _ _ _ _ _ _ H1) in Hb. destruct Hb as [Hb|Hb].
      + now apply (proj1 (visit_scan_closed g) _ _ _ _ H1 b).
      + apply (visit_incl _ _ _ _ _ H1). now apply (Cl b).
    - destruct I1. cbn. destruct (1 <? ap_children s1); split; assumption.
    - intros x Hx. apply (visit_in _ _ _ _ _ _ H1) in Hx.
      destruct (Nat.eq_dec x r) as [->|n].
      + destruct T1 as (_ & _ & T1). destruct (Z.ltb_spec 1 (ap_children s1)) as [Hc|Hc].
        * left. rewrite Em. apply upd_same.
        * right. specialize (T1 Hc). intros y z Hy Hz Hyr Hzr.
          assert (forall y, arc g r y -> In y (rev (discovers t1))) as Hin.
          { intros y' Hy'. apply in_rev. rewrite rev_involutive.
            assert (In y' D1) as Hd by (apply (proj1 (visit_scan_closed g) _ _ _ _ H1 r); [now apply (visit_discovers_root _ _ _ _ _ H1) | assumption]).
            apply (visit_in _ _ _ _ _ _ H1) in Hd. destruct Hd as [?|Hd]; [assumption|]. destruct Hn. apply (Cl y'); [assumption | now apply sym]. }
          apply T1; auto.
      + destruct Hx as [Hx|Hx].
        * destruct (F1 x) as [?|?]; [now apply -> in_rev | now left | left; auto | now right].
        * destruct (Fi x Hx) as [Hm|?]; [|now right]. left. apply Mono. apply S1. exact Hm.
  Qed.
End Artic.

(** ** is_vertex_discovered is exact *)
Definition artic_ok (g : graph) (D : list nat) (s : artic) : Prop :=
  0 <= ap_now s /\ (forall v, In v D -> 0 < ap_time s v) /\ forall v, (v < g_n g)%nat -> ~ In v D -> ap_time s v = 0.
Lemma artic_disciplined g : disciplined g artic_visitor (artic_ok g).
Proof.
  assert (forall D s u, artic_ok g D s -> artic_ok g (u :: D) (v_step artic_visitor (EStart u) s)) as A.
  { intros D s u (H0 & H1 & H2). split; [cbn; lia|]. split.
    - intros v [<-|Hv]; cbn; [rewrite upd_same; lia|]. unfold upd. destruct (v =? u)%nat; [lia | auto].
    - intros v Lv Hv. cbn. rewrite upd_other; [|intros ->; apply Hv; now left]. apply H2; [assumption | intro; apply Hv; now right]. }
  split; intros.
  - destruct H as (_ & H1 & H2). cbn. rewrite negb_true_iff, Z.eqb_neq. split.
    + intro X. destruct (in_dec Nat.eq_dec v D); [assumption|]. now destruct X; apply H2.
    + intro X. specialize (H1 v X). lia.
  - now apply (A D (v_step artic_visitor (ESearchStart u) s)).
  - now apply A.
  - exact H.
  - cbn [v_step artic_visitor to_visitor c_step articulation_finder]. cbv zeta.
    destruct (ap_time s (e_src e) <=? ap_low s (e_tgt e)); [|assumption]. destruct (ap_pop_while _ _ _ _). exact H.
  - exact H.
  - cbn. destruct (1 <? ap_children s); exact H.
Qed.

Theorem artic_refines g am cm : wf_graph g -> symmetric g ->
  exists k s, (forall f, (k <= f)%nat -> find_articulation_points f g am cm = Ok s) /\
    forall u, (u < g_n g)%nat -> cut_vertex g u -> ap_map s u = true.
Proof.
  intros wf sym.
  assert (forall us s, exists tm, fold_left (fun s u => v_step artic_visitor (EInit u) s) us s =
    {| ap_map := ap_map s; ap_cmap := ap_cmap s; ap_stack := ap_stack s; ap_cn := ap_cn s; ap_time := tm; ap_low := ap_low s;
       ap_root := ap_root s; ap_now := ap_now s; ap_children := ap_children s |} /\ tm = fold_left (fun m u => upd m u 0) us (ap_time s)) as Ei.
  { induction us as [|u us IH]; intros [? ? ? ? ? ? ? ? ?]; [eexists; split; reflexivity|]. cbn [fold_left].
    edestruct IH as (tm & -> & ->). eexists. split; reflexivity. }
  destruct (Ei (vertices g) (artic_init am cm)) as (tm & E0 & Et).
  destruct (dfs_all_run artic_visitor g (artic_ok g) wf (artic_disciplined g) (artic_init am cm)) as (t & D' & F & R & k & E).
  { unfold init_all. rewrite E0. split; [cbn; lia|]. split; [easy|]. cbn. intros v Hv _. rewrite Et. apply fold_upd. now apply in_vertices. }
  exists k. eexists. split; [exact E|]. intros u Hu Cu.
  assert (NoDup D') as ND by (apply (forest_nodup _ _ _ _ _ F); constructor).
  destruct (times_exists D' ND) as (T & HT).
  destruct (forest_artic g wf sym T (vertices g) [] t D' F) with (s := init_all artic_visitor g (artic_init am cm)) (x := u) as [?|Cf]; try easy.
  - intros r. apply in_vertices.
  - unfold init_all. rewrite E0. split; [reflexivity | easy].
  - apply (forest_roots _ _ _ _ _ _ F). now apply in_vertices.
  - now apply cut_free_ok in Cf.
Qed.
