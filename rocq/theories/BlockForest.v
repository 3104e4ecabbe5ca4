(** Labels of edges given by find_articulation_points_and_components when no cycle has three vertices. *)
From Coq Require Import ZArith List Bool PeanoNat Lia.
From Verif Require Import Outcome GraphModel DfsProofs DfsResults TarjanProofs BridgeProofs ArticProofs ArticSound BlockProofs.
Import ListNotations.
Local Open Scope Z_scope.

(** ** Specification: no cycle through three or more distinct vertices *)
Definition thin (g : graph) : Prop :=
  forall l, NoDup l -> (3 <= length l)%nat -> walk g l -> ~ arc g (last l 0%nat) (hd 0%nat l).

Lemma pop_while_exact pred n B : (forall e, In e B -> pred e = false) -> forall A m, (forall e, In e A -> pred e = true) ->
  exists m', ap_pop_while pred m n (A ++ B) = (m', B) /\ (forall e, In e A -> m' (e_id e) = n) /\
    forall i, (forall e, In e A -> e_id e <> i) -> m' i = m i.
Proof.
  intros HB. induction A as [|e A IH]; intros m HA; cbn [app ap_pop_while].
  - exists m. split; [|easy]. destruct B as [|b B]; [reflexivity|]. cbn. rewrite (HB b); [reflexivity | now left].
  - rewrite (HA e) by now left. destruct (IH (upd m (e_id e) n)) as (m' & E & E1 & E2); [intros; apply HA; now right|].
    exists m'. split; [exact E|]. split.
    + intros x [<-|Hx]; [|auto]. destruct (in_dec Nat.eq_dec (e_id e) (map e_id A)) as [Hi|Hi].
      * apply in_map_iff in Hi as (y & Ey & Hy). rewrite <- Ey. auto.
      * rewrite E2; [apply upd_same|]. intros y Hy Ey. apply Hi. rewrite <- Ey. now apply in_map.
    + intros i Hi. rewrite E2; [|intros; apply Hi; now right]. apply upd_other. intros ->. now apply (Hi e (or_introl eq_refl)).
Qed.

Section Thin.
  Variable g : graph.
  Hypothesis wf : wf_graph g.
  Hypothesis sym : symmetric g.
  Hypothesis ids : forall u u' e e', In e (g_out g u) -> In e' (g_out g u') -> e_id e = e_id e' -> e' = e \/ e' = rev_edge e.
  Hypothesis Hthin : thin g.
  Variable T : nat -> Z.
  Local Notation V := artic_visitor.
  Definition up (e : edge) : Prop := T (e_tgt e) < T (e_src e).
  Record lab (G D : list nat) (s : artic) : Prop := {
    la_cn : 0 <= ap_cn s;
    la_in v e : In v D -> ~ In v G -> In e (g_out g v) -> up e -> labelled s e;
    la_eq v w e f : In v D -> ~ In v G -> In w D -> ~ In w G -> In e (g_out g v) -> In f (g_out g w) -> up e -> up f ->
      (ap_cmap s (e_id e) = ap_cmap s (e_id f) <-> v = w);
    la_one v e f : In v D -> ~ In v G -> In e (g_out g v) -> In f (g_out g v) -> up e -> up f -> e_tgt e = e_tgt f }.
  Definition below (st : list edge) (G : list nat) : Prop :=
    forall e, In e st -> In (e_tgt e) G /\ exists p G', G = p :: G' /\ T (e_tgt e) < T p.
  Definition lows (u : nat) (G : list nat) (s : artic) : Prop := forall p, hd_error G = Some p -> T p <= ap_low s u.

  Lemma visit_scan_thin :
    (forall u D t D', visit g u D t D' -> ~ In u D -> (u < g_n g)%nat -> times T D' ->
       forall G s, ainv T D s -> ~ In u G -> NoDup G -> incl G D -> chain g (u :: G) -> (forall b v, In b D -> ~ In b G -> arc g b v -> In v D) ->
       lab G D s -> below (ap_stack s) G ->
       let s' := run V t s in
       ainv T D' s' /\ lab (u :: G) D' s' /\
       (exists Sg, ap_stack s' = Sg ++ ap_stack s /\ forall e, In e Sg <-> In e (g_out g u) /\ up e) /\
       (forall e, In e (g_out g u) -> up e -> hd_error G = Some (e_tgt e)) /\
       lows u G s' /\ (forall v, In v D -> ap_low s' v = ap_low s v)) /\
    (forall u es D t D', scan_es g u es D t D' -> times T D' ->
       forall G s D0 X Q Sg base, Q ++ es = g_out g u -> D = X ++ D0 -> In u X -> ~ In u D0 ->
       ainv T D s -> ~ In u G -> NoDup G -> incl G D0 -> chain g (u :: G) -> (forall b v, In b D -> ~ In b (u :: G) -> arc g b v -> In v D) ->
       (forall b v, In b D0 -> ~ In b G -> arc g b v -> In v D0) -> (forall x, In x X -> T u <= T x) ->
       lab (u :: G) D s -> below base G -> ap_stack s = Sg ++ base -> (forall e, In e Sg <-> In e Q /\ up e) ->
       (forall e, In e Q -> up e -> hd_error G = Some (e_tgt e)) -> lows u G s ->
       let s' := run V t s in
       ainv T D' s' /\ lab (u :: G) D' s' /\
       (exists Sg, ap_stack s' = Sg ++ base /\ forall e, In e Sg <-> In e (g_out g u) /\ up e) /\
       (forall e, In e (g_out g u) -> up e -> hd_error G = Some (e_tgt e)) /\
       lows u G s' /\ (forall v, In v D -> v <> u -> ap_low s' v = ap_low s v)).
  Proof.
    apply visit_scan_ind.
    - intros u D t D' H IH Hu Lu HT G s I HuG NG GD HC Cl La Be. cbv zeta.
      change (run V (EDiscover u :: EStart u :: t) s) with (run V t (v_step V (EStart u) s)).
      set (s1 := v_step V (EStart u) s). pose proof (scan_times _ _ _ _ _ _ _ H HT) as HTu.
      pose proof (times_head _ _ _ HTu) as Tu.
      assert (ainv T (u :: D) s1) as I1.
      { destruct I. split; cbn [ap_now ap_time s1 v_step artic_visitor to_visitor c_step articulation_finder].
        - cbn [length]. lia.
        - intros v [<-|Hv]; [rewrite upd_same; lia|]. rewrite upd_other; [auto|]. intros ->. contradiction. }
      destruct (IH HT G s1 D [u] [] [] (ap_stack s)) as (A1 & A2 & A3 & A4 & A5 & A6); auto.
      + now left.
      + intros b v [<-|Hb] Hg Ha; [destruct Hg; now left|]. right. apply (Cl b v); auto. intro; apply Hg; now right.
      + intros x [<-|[]]. lia.
      + assert (forall v, In v (u :: D) -> ~ In v (u :: G) -> In v D /\ ~ In v G) as K.
        { intros v [<-|Hv] Hg; [destruct Hg; now left|]. split; [assumption|]. intro; apply Hg; now right. }
        destruct La as [L1 L2 L3 L4]. split; [exact L1 | | |].
        * intros v e Hv Hg. destruct (K v Hv Hg). now apply L2.
        * intros v w e f Hv Hg Hw Hgw. destruct (K v Hv Hg), (K w Hw Hgw). now apply L3.
        * intros v e f Hv Hg. destruct (K v Hv Hg). now apply L4.
      + intros e. cbn. tauto.
      + easy.
      + intros p Hp. cbn. rewrite upd_same, (ai_now _ _ _ I).
        assert (In p G) as HpG by (destruct G; [discriminate|]; injection Hp as ->; now left).
        assert (T p < T u) by (apply (times_before T [u] D); [assumption | now left | auto]). lia.
      + split; [assumption|]. split; [assumption|]. split; [assumption|]. split; [assumption|]. split; [assumption|].
        intros v Hv. assert (v <> u) by (intros ->; contradiction). rewrite A6; [|now right | assumption]. cbn. now apply upd_other.
    - intros u D HT G s D0 X Q Sg base EQ -> HuX HuD I HuG NG GD HC Cl Bl Xt La Be Es HS HQ Lo. cbv zeta.
      change (run V [EFinish u] s) with s. rewrite app_nil_r in EQ. subst Q.
      split; [assumption|]. split; [assumption|]. split; [now exists Sg|]. auto.
    - intros u e es D t D' Hi H IH HT G s D0 X Q Sg base EQ -> HuX HuD I HuG NG GD HC Cl Bl Xt La Be Es HS HQ Lo. cbv zeta.
      change (run V (ENonTree e :: t) s) with (run V t (v_step V (ENonTree e) s)).
      set (s1 := v_step V (ENonTree e) s).
      assert (In e (g_out g u)) as He by (rewrite <- EQ; apply in_app_iff; right; now left).
      destruct (wf _ _ He) as (E1 & E2). pose proof (scan_times _ _ _ _ _ _ _ H HT) as HTs.
      assert (ap_cmap s1 = ap_cmap s /\ ap_cn s1 = ap_cn s /\ ap_time s1 = ap_time s /\ ap_now s1 = ap_now s /\
        ap_stack s1 = (if T (e_tgt e) <? T u then e :: ap_stack s else ap_stack s) /\
        ap_low s1 = if T (e_tgt e) <? ap_low s u then upd (ap_low s) u (T (e_tgt e)) else ap_low s) as (B1 & B2 & B3 & B4 & B5 & B6).
      { unfold s1. cbn. rewrite E1, (ai_time _ _ _ I _ Hi), (ai_time _ _ _ I u) by (apply in_app_iff; now left). repeat split. }
      assert (up e -> hd_error G = Some (e_tgt e)) as Hup.
      { unfold up. rewrite E1. intros Hl. apply in_app_iff in Hi as [Hi|Hi]; [specialize (Xt _ Hi); lia|].
        destruct (in_dec Nat.eq_dec (e_tgt e) G) as [Hg|Hg].
        2:{ destruct HuD. apply (Bl (e_tgt e) u Hi Hg). apply sym. now exists e. }
        apply in_split in Hg as (G1 & G2 & EG). destruct G1 as [|p G1]; [now rewrite EG|]. exfalso.
        assert (rev (u :: (p :: G1) ++ [e_tgt e]) = e_tgt e :: rev (p :: G1) ++ [u]) as Er by (change (rev (((u :: p :: G1) ++ [e_tgt e])) = e_tgt e :: rev (p :: G1) ++ [u]); now rewrite rev_app_distr).
        apply (Hthin (e_tgt e :: rev (p :: G1) ++ [u])).
        - rewrite <- Er. apply NoDup_rev. apply NoDup_prefix with G2. change (NoDup (u :: ((p :: G1) ++ [e_tgt e]) ++ G2)).
          rewrite <- app_assoc. change ([e_tgt e] ++ G2) with (e_tgt e :: G2). rewrite <- EG. now constructor.
        - cbn [length]. rewrite app_length, rev_length. cbn [length]. lia.
        - rewrite <- Er. apply chain_walk. apply chain_app with G2. change (chain g (u :: ((p :: G1) ++ [e_tgt e]) ++ G2)).
          rewrite <- app_assoc. change ([e_tgt e] ++ G2) with (e_tgt e :: G2). now rewrite <- EG.
        - change (e_tgt e :: rev (p :: G1) ++ [u]) with ((e_tgt e :: rev (p :: G1)) ++ [u]). rewrite last_last. now exists e. }
      destruct (IH HT G s1 D0 X (Q ++ [e]) (if T (e_tgt e) <? T u then e :: Sg else Sg) base) as (A1 & A2 & A3 & A4 & A5 & A6); auto.
      + rewrite <- app_assoc. exact EQ.
      + destruct I. split; [now rewrite B4 | now rewrite B3].
      + destruct La as [L1 L2 L3 L4]. unfold labelled in *. split; unfold labelled; rewrite ?B1, ?B2; auto.
      + rewrite B5, Es. now destruct (T (e_tgt e) <? T u).
      + intros x. rewrite in_app_iff. cbn [In]. destruct (Z.ltb_spec (T (e_tgt e)) (T u)) as [Hl|Hl].
        * cbn [In]. rewrite HS. split; [intros [<-|?]; [|tauto]|tauto]. split; [auto|]. unfold up. now rewrite E1.
        * rewrite HS. split; [tauto|]. intros ([?|[<-|[]]] & Hu); [tauto|]. unfold up in Hu. rewrite E1 in Hu. lia.
      + intros x Hx. apply in_app_iff in Hx as [Hx|[<-|[]]]; auto.
      + intros p Hp. rewrite B6. destruct (Z.ltb_spec (T (e_tgt e)) (ap_low s u)) as [Hl|Hl]; [|now apply Lo]. rewrite upd_same.
        destruct (Z_lt_le_dec (T (e_tgt e)) (T u)) as [Hu|Hu].
        * assert (up e) as Ue by (unfold up; now rewrite E1). apply Hup in Ue. rewrite Hp in Ue. injection Ue as ->. lia.
        * assert (In p G) as HpG by (destruct G; [discriminate|]; injection Hp as ->; now left).
          assert (T p < T u) by (apply (times_before T X D0); auto). lia.
      + split; [assumption|]. split; [assumption|]. split; [assumption|]. split; [assumption|]. split; [assumption|].
        intros v Hv Hn. rewrite A6 by assumption. rewrite B6. destruct (T (e_tgt e) <? ap_low s u); [now apply upd_other | reflexivity].
    - intros u e es D t1 D1 t2 D' Hn H1 IH1 H2 IH2 HT G s D0 X Q Sg base EQ -> HuX HuD I HuG NG GD HC Cl Bl Xt La Be Es HS HQ Lo. cbv zeta.
      set (D := X ++ D0) in *. assert (In u D) as Hu by (apply in_app_iff; now left).
      assert (In e (g_out g u)) as He by (rewrite <- EQ; apply in_app_iff; right; now left).
      destruct (wf _ _ He) as (E1 & E2). set (c := e_tgt e) in *.
      assert (run V (ETreeStart e :: t1 ++ ETreeFinish e :: t2) s = run V t2 (v_step V (ETreeFinish e) (run V t1 s))) as ->.
      { change (run V (t1 ++ ETreeFinish e :: t2) s = run V t2 (v_step V (ETreeFinish e) (run V t1 s))). now rewrite run_app. }
      pose proof (scan_times _ _ _ _ _ _ _ H2 HT) as HT1.
      assert (incl (u :: G) D) as GD1.
      { intros b [<-|Hb]; [assumption|]. apply in_app_iff. right. auto. }
      assert (~ In c (u :: G)) as HcG by (intro Y; apply Hn; auto).
      assert (c <> u) as Hcu by (intros Y; apply HcG; left; auto).
      assert (arc g u c) as Ha by now exists e.
      assert (NoDup (u :: G)) as NG1 by now constructor.
      assert (D1 = rev (discovers t1) ++ D) as ED1 by exact (proj1 (visit_scan_discovers g) _ _ _ _ H1).
      set (Xc := rev (discovers t1)) in *.
      assert (In c Xc) as HcX by (apply -> in_rev; now apply (visit_discovers_root _ _ _ _ _ H1)).
      assert (times T (Xc ++ D)) as HTx by now rewrite <- ED1.
      assert (times T D) as HTD by now apply times_app in HTx.
      assert (forall x, In x Xc -> T u < T x) as Xu by (intros x Hx; apply (times_before T Xc D); auto).
      assert (forall x, In x (ap_stack s) -> In (e_tgt x) G) as Sd.
      { intros x Hx. rewrite Es in Hx. apply in_app_iff in Hx as [Hx|Hx]; [|now apply Be].
        apply HS in Hx as (Hq & Ux). specialize (HQ x Hq Ux). destruct G as [|p G']; [discriminate|]. injection HQ as ->. now left. }
      assert (forall x, In x (ap_stack s) -> T (e_tgt x) < T u) as St.
      { intros x Hx. rewrite Es in Hx. apply in_app_iff in Hx as [Hx|Hx].
        - apply HS in Hx as (Hq & Ux). unfold up in Ux. destruct (wf u x) as (Ex & _); [rewrite <- EQ; apply in_app_iff; now left|]. now rewrite Ex in Ux.
        - destruct (Be x Hx) as (_ & p & G' & -> & Hp). assert (T p < T u) by (apply (times_before T X D0); [assumption | assumption | apply GD; now left]). lia. }
      destruct (IH1 Hn E2 HT1 (u :: G) s I HcG NG1 GD1 (conj Ha HC) Cl La) as (I1 & L1 & (Sc & S1 & HSc) & C1 & W1 & K1).
      { intros x Hx. split; [right; auto|]. exists u, G. auto. }
      clear IH1. specialize (W1 u eq_refl). set (s1 := run V t1 s) in *.
      assert (forall x, In x (g_out g c) -> up x -> e_tgt x = u) as Cu by (intros x Hx Ux; specialize (C1 x Hx Ux); now injection C1).
      rewrite ED1 in HT1, I1, L1.
      assert (ap_time s1 u = T u) as Tu by (apply (ai_time _ _ _ I1); apply in_app_iff; now right).
      set (s3 := v_step V (ETreeFinish e) s1).
      destruct (pop_while_exact (fun x => (T u <=? ap_time s1 (e_src x)) && (T u <=? ap_time s1 (e_tgt x))) (ap_cn s1) (ap_stack s)) with (A := Sc) (m := ap_cmap s1) as (m' & Ep & M1 & M2).
      { intros x Hx. apply andb_false_iff. right. apply Z.leb_gt.
        assert (In (e_tgt x) D) as Hxd by (apply GD1; right; auto).
        rewrite (ai_time _ _ _ I1) by (apply in_app_iff; now right). auto. }
      { intros x Hx. apply HSc in Hx as (Hx & Ux). destruct (wf _ _ Hx) as (Ex & _). rewrite Ex, (Cu x Hx Ux), Tu.
        rewrite (ai_time _ _ _ I1) by (apply in_app_iff; now left). specialize (Xu c HcX). apply andb_true_iff. split; apply Z.leb_le; lia. }
      assert (ap_now s3 = ap_now s1 /\ ap_time s3 = ap_time s1 /\ ap_low s3 = ap_low s1 /\ ap_cmap s3 = m' /\ ap_cn s3 = ap_cn s1 + 1 /\ ap_stack s3 = ap_stack s)
        as (B1 & B2 & B3 & B4 & B5 & B6).
      { unfold s3. cbn [v_step artic_visitor to_visitor c_step articulation_finder]. rewrite E1, Tu. fold c.
        destruct (Z.leb_spec (T u) (ap_low s1 c)); [|lia]. rewrite S1, Ep. cbn. repeat split. }
      assert (lab (u :: G) (Xc ++ D) s3) as L3.
      { assert (forall v x, In v (Xc ++ D) -> ~ In v (u :: G) -> v <> c -> In x (g_out g v) -> up x -> ap_cmap s3 (e_id x) = ap_cmap s1 (e_id x)) as Keep.
        { intros v x Hv Hg Hvc Hx Ux. rewrite B4. apply M2. intros y Hy Ey. apply HSc in Hy as (Hy & Uy). destruct (wf _ _ Hx) as (Ex & _), (wf _ _ Hy) as (Ey' & _).
          destruct (ids _ _ _ _ Hy Hx Ey) as [->| ->]; [congruence|]. unfold up in Ux, Uy. cbn in Ux. lia. }
        assert (forall x, In x (g_out g c) -> up x -> ap_cmap s3 (e_id x) = ap_cn s1) as New.
        { intros x Hx Ux. rewrite B4. apply M1. apply HSc. now split. }
        assert (forall v, ~ In v (u :: G) -> v <> c -> ~ In v (c :: u :: G)) as Nc by (intros v Hg Hc [<-|Y]; auto).
        destruct L1 as [L1 L2 L3 L4]. unfold labelled in *. split.
        - lia.
        - intros v x Hv Hg Hx Ux. unfold labelled. rewrite B5. destruct (Nat.eq_dec v c) as [->|Hc].
          + rewrite New by assumption. lia.
          + rewrite (Keep v) by assumption. specialize (L2 v x Hv (Nc v Hg Hc) Hx Ux). lia.
        - intros v w x y Hv Hg Hw Hgw Hx Hy Ux Uy. destruct (Nat.eq_dec v c) as [->|Hc]; destruct (Nat.eq_dec w c) as [->|Hc2].
          + rewrite !New by assumption. easy.
          + rewrite New, (Keep w) by assumption. specialize (L2 w y Hw (Nc w Hgw Hc2) Hy Uy). split; [lia|congruence].
          + rewrite (New y), (Keep v) by assumption. specialize (L2 v x Hv (Nc v Hg Hc) Hx Ux). split; [lia|congruence].
          + rewrite (Keep v), (Keep w) by assumption. now apply L3; auto.
        - intros v x y Hv Hg Hx Hy Ux Uy. destruct (Nat.eq_dec v c) as [->|Hc].
          + rewrite (Cu x), (Cu y) by assumption. reflexivity.
          + now apply (L4 v); auto. }
      destruct (IH2 HT G s3 D0 (Xc ++ X) (Q ++ [e]) Sg base) as (A1 & A2 & A3 & A4 & A5 & A6); auto.
      + rewrite <- app_assoc. exact EQ.
      + rewrite <- app_assoc. exact ED1.
      + apply in_app_iff. now right.
      + rewrite ED1. destruct I1. split; [now rewrite B1 | now rewrite B2].
      + intros b v Hb Hg Hbv. rewrite ED1 in Hb. apply in_app_iff in Hb. destruct Hb as [Hb|Hb].
        * apply in_rev in Hb. now apply (proj1 (visit_scan_closed g) _ _ _ _ H1 b).
        * rewrite ED1. apply in_app_iff. right. now apply (Cl b).
      + intros x Hx. apply in_app_iff in Hx as [Hx|Hx]; [|auto]. specialize (Xu x Hx). lia.
      + now rewrite ED1.
      + now rewrite B6.
      + assert (~ up e) as Ne by (unfold up; fold c; rewrite E1; specialize (Xu c HcX); lia).
        intros x. rewrite HS, in_app_iff. cbn [In]. split; [tauto|]. intros ([?|[<-|[]]] & ?); tauto.
      + intros x Hx Ux. apply in_app_iff in Hx as [Hx|[<-|[]]]; [auto|]. unfold up in Ux. fold c in Ux. rewrite E1 in Ux. specialize (Xu c HcX). lia.
      + intros p Hp. rewrite B3, K1 by assumption. now apply Lo.
      + split; [assumption|]. split; [assumption|]. split; [assumption|]. split; [assumption|]. split; [assumption|].
        intros v Hv Hvu. rewrite A6; [|rewrite ED1; apply in_app_iff; now right | assumption]. rewrite B3. auto.
  Qed.

  Lemma forest_thin rs D t D' : forest g rs D t D' -> (forall r, In r rs -> (r < g_n g)%nat) ->
    times T D' -> (forall b v, In b D -> arc g b v -> In v D) -> forall s, ainv T D s -> lab [] D s -> ap_stack s = [] ->
    lab [] D' (run V t s).
  Proof.
    induction 1 as [D|r rs D t D' Hi F IH|r rs D t1 D1 t2 D' Hn H1 H2 IH]; intros Hr HT Cl s I La S0; [assumption| |].
    - apply IH; auto. intros; apply Hr; now right.
    - set (s0 := v_step V (ESearchStart r) s).
      assert (run V (ESearchStart r :: t1 ++ ESearchFinish (Some r) :: t2) s = run V t2 (v_step V (ESearchFinish (Some r)) (run V t1 s0))) as ->.
      { change (run V (t1 ++ ESearchFinish (Some r) :: t2) s0 = run V t2 (v_step V (ESearchFinish (Some r)) (run V t1 s0))). now rewrite run_app. }
      assert (times T D1) as HT1 by (destruct (forest_suffix _ _ _ _ _ H2) as (X & ->); now apply times_app in HT).
      destruct (proj1 visit_scan_thin r D t1 D1 H1 Hn (Hr r (or_introl eq_refl)) HT1 [] s0) as (I1 & L1 & (Sg & S1 & HS) & R1 & _); try easy.
      { destruct I. now split. }
      { constructor. }
      { intros b v Hb _. now apply Cl. }
      { destruct La. now split. }
      { cbn. now rewrite S0. }
      set (s1 := run V t1 s0) in *. set (s2 := v_step V (ESearchFinish (Some r)) s1).
      assert (ap_stack s2 = ap_stack s1 /\ ap_cmap s2 = ap_cmap s1 /\ ap_cn s2 = ap_cn s1 /\ ap_time s2 = ap_time s1 /\ ap_now s2 = ap_now s1) as (E1 & E2 & E3 & E4 & E5).
      { unfold s2. cbn. destruct (1 <? ap_children s1); repeat split. }
      assert (forall v e, ~ In v [] -> In e (g_out g v) -> up e -> ~ In v [r]) as Nr.
      { intros v e _ He Ue [<-|[]]. specialize (R1 e He Ue). discriminate. }
      apply IH.
      + intros; apply Hr; now right.
      + assumption.
      + intros b v Hb Ha. apply (visit_in _ _ _ _ _ _ H1) in Hb. destruct Hb as [Hb|Hb].
        * now apply (proj1 (visit_scan_closed g) _ _ _ _ H1 b).
        * apply (visit_incl _ _ _ _ _ H1). now apply (Cl b).
      + destruct I1. split; [now rewrite E5 | now rewrite E4].
      + destruct L1 as [L1 L2 L3 L4]. unfold labelled in *. split; unfold labelled; rewrite ?E2, ?E3.
        * assumption.
        * intros v e Hv Hg He Ue. apply (L2 v); eauto.
        * intros v w e f Hv Hg Hw Hgw He Hf Ue Uf. apply L3; eauto.
        * intros v e f Hv Hg He Hf Ue Uf. apply (L4 v); eauto.
      + rewrite E1, S1. cbn. rewrite S0, app_nil_r. destruct Sg as [|x Sg]; [reflexivity|].
        destruct (proj1 (HS x) (or_introl eq_refl)) as (Hx & Ux). specialize (R1 x Hx Ux). discriminate.
  Qed.
End Thin.

Lemma time_inj T D v w : times T D -> In v D -> In w D -> T v = T w -> v = w.
Proof.
  intros HT Hv Hw E. destruct (Nat.eq_dec v w) as [|N]; [assumption|]. exfalso.
  apply in_split in Hv as (D1 & D2 & ->). apply in_app_iff in Hw as [Hw|[Hw|Hw]]; [|congruence|].
  - pose proof (times_before T D1 (v :: D2) w v HT Hw (or_introl eq_refl)). lia.
  - replace (D1 ++ v :: D2) with ((D1 ++ [v]) ++ D2) in HT by now rewrite <- app_assoc.
    pose proof (times_before T (D1 ++ [v]) D2 v w HT ltac:(apply in_app_iff; right; now left) Hw). lia.
Qed.

(** Two edges that are not loops get one label exactly when they join the same two vertices. *)
Theorem artic_thin g am cm : multigraph g -> thin g ->
  exists k s, (forall f, (k <= f)%nat -> find_articulation_points f g am cm = Ok s) /\
    forall u v e f, In e (g_out g u) -> In f (g_out g v) -> e_tgt e <> u -> e_tgt f <> v ->
      (ap_cmap s (e_id e) = ap_cmap s (e_id f) <-> (u = v /\ e_tgt e = e_tgt f) \/ (u = e_tgt f /\ v = e_tgt e)).
Proof.
  intros M Th. pose proof (mg_wf g M) as wf. pose proof (multigraph_sym g M) as sym.
  assert (forall us s, exists tm, fold_left (fun s u => v_step artic_visitor (EInit u) s) us s =
    {| ap_map := ap_map s; ap_cmap := ap_cmap s; ap_stack := ap_stack s; ap_cn := ap_cn s; ap_time := tm; ap_low := ap_low s;
       ap_root := ap_root s; ap_now := ap_now s; ap_children := ap_children s |} /\ tm = fold_left (fun m u => upd m u 0) us (ap_time s)) as Ei.
  { induction us as [|u us IH]; intros [? ? ? ? ? ? ? ? ?]; [eexists; split; reflexivity|]. cbn [fold_left].
    edestruct IH as (tm & -> & ->). eexists. split; reflexivity. }
  destruct (Ei (vertices g) (artic_init am cm)) as (tm & E0 & Et).
  destruct (dfs_all_run artic_visitor g (artic_ok g) wf (artic_disciplined g) (artic_init am cm)) as (t & D' & F & R & k & E).
  { unfold init_all. rewrite E0. split; [cbn; lia|]. split; [easy|]. cbn. intros v Hv _. rewrite Et. apply fold_upd. now apply in_vertices. }
  exists k. eexists. split; [exact E|].
  assert (NoDup D') as ND by (apply (forest_nodup _ _ _ _ _ F); constructor).
  destruct (times_exists D' ND) as (T & HT).
  assert (lab g T [] D' (run artic_visitor t (init_all artic_visitor g (artic_init am cm)))) as L.
  { apply (forest_thin g wf sym (mg_ids g M) Th T (vertices g) [] t D' F); auto.
    - intros r. apply in_vertices.
    - unfold init_all. rewrite E0. split; [reflexivity | easy].
    - split; try easy. unfold init_all. rewrite E0. cbn. lia.
    - unfold init_all. rewrite E0. reflexivity. }
  set (s := run artic_visitor t _) in *.
  assert (forall u e, In e (g_out g u) -> In u D' /\ In (e_tgt e) D') as HD.
  { intros u e He. pose proof (mg_rev g M u e He) as Hr. destruct (wf _ _ He) as (E1 & E2), (wf _ _ Hr) as (_ & E3). cbn in E3. rewrite E1 in E3.
    split; apply (forest_roots _ _ _ _ _ _ F); now apply in_vertices. }
  (* each edge seen from the end discovered later *)
  assert (forall u e, In e (g_out g u) -> e_tgt e <> u -> exists w e', In w D' /\ In e' (g_out g w) /\ up T e' /\ e_id e' = e_id e /\
    ((w = u /\ e_tgt e' = e_tgt e) \/ (w = e_tgt e /\ e_tgt e' = u)) /\ T (e_tgt e') < T w) as Up.
  { intros u e He Hne. destruct (HD u e He) as (Hu & Hv). destruct (wf _ _ He) as (E1 & E2).
    destruct (Z.lt_trichotomy (T (e_tgt e)) (T u)) as [Hl|[Hl|Hl]].
    - exists u, e. unfold up. rewrite E1. auto 8.
    - destruct Hne. now apply (time_inj T D').
    - exists (e_tgt e), (rev_edge e). unfold up. cbn. rewrite E1. split; [assumption|]. split; [now apply (mg_rev g M u)|]. auto 10. }
  intros u v e f He Hf Ne Nf.
  destruct (Up u e He Ne) as (w & e' & Hw & He' & Ue & Ie & Pe & Te). destruct (Up v f Hf Nf) as (x & f' & Hx & Hf' & Uf & If & Pf & Tf).
  rewrite <- Ie, <- If. rewrite (la_eq _ _ _ _ _ L w x e' f') by auto. split.
  - intros Ewx. assert (e_tgt e' = e_tgt f') as Et' by (subst x; apply (la_one _ _ _ _ _ L w); auto).
    destruct Pe as [(P1 & P2)|(P1 & P2)], Pf as [(Q1 & Q2)|(Q1 & Q2)].
    + left. split; congruence.
    + right. split; congruence.
    + right. split; congruence.
    + left. split; congruence.
  - assert (forall a b, T a < T b -> a <> b) as Na by (intros a b ? ->; lia).
    intros [(-> & Q)|(-> & ->)]; destruct Pe as [(P1 & P2)|(P1 & P2)], Pf as [(Q1 & Q2)|(Q1 & Q2)]; try congruence; subst; rewrite ?P2, ?Q2 in *; rewrite ?Q in *; lia.
Qed.
