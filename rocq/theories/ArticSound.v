(** What find_articulation_points reports besides the cut vertices. *)
From Coq Require Import ZArith List Bool PeanoNat Lia Permutation.
From Verif Require Import Outcome GraphModel DfsProofs DfsResults TarjanProofs BridgeProofs ArticProofs.
Import ListNotations.
Local Open Scope Z_scope.

(** ** Specification *)
Fixpoint walk (g : graph) (l : list nat) : Prop :=
  match l with x :: ((y :: _) as l') => arc g x y /\ walk g l' | _ => True end.
(** A cycle through at least four vertices, all of them distinct. *)
Definition long_cycle (g : graph) (l : list nat) : Prop :=
  NoDup l /\ (4 <= length l)%nat /\ walk g l /\ arc g (last l 0%nat) (hd 0%nat l).

Lemma walk_join g l1 x y l2 : walk g (l1 ++ [x]) -> arc g x y -> walk g (y :: l2) -> walk g (l1 ++ x :: y :: l2).
Proof.
  intros W A V. induction l1 as [|a l1 IH]; [now split|]. destruct l1 as [|b l1]; cbn in W |- *.
  - destruct W as [Wa _]. split; [exact Wa|]. now split.
  - destruct W as [Wa W]. split; [exact Wa|]. now apply IH.
Qed.
Lemma walk_prefix g l1 l2 : walk g (l1 ++ l2) -> walk g l1.
Proof.
  induction l1 as [|a l1 IH]; [easy|]. destruct l1 as [|b l1]; [easy|]. intros [Wa W]. split; [exact Wa|]. now apply IH.
Qed.
Lemma chain_walk g l : chain g l -> walk g (rev l).
Proof.
  induction l as [|x l IH]; [easy|]. destruct l as [|y l]; [easy|]. intros [A C]. specialize (IH C). cbn [rev] in *.
  rewrite <- app_assoc. apply walk_join; auto. easy.
Qed.
Lemma chain_app g l1 l2 : chain g (l1 ++ l2) -> chain g l1.
Proof.
  induction l1 as [|a l1 IH]; [easy|]. destruct l1 as [|b l1]; [easy|]. intros [Wa W]. split; [exact Wa|]. now apply IH.
Qed.
Lemma NoDup_prefix {A} (l1 l2 : list A) : NoDup (l1 ++ l2) -> NoDup l1.
Proof.
  induction l1 as [|a l1 IH]; [constructor|]. cbn. intros N. inversion_clear N as [|? ? Na Nl]. constructor; [|auto].
  intros I. apply Na. apply in_app_iff. now left.
Qed.
Lemma hd_app1 (l : list nat) x r : hd 0%nat (l ++ x :: r) = hd 0%nat (l ++ [x]). Proof. now destruct l. Qed.
Lemma simple_path g D a b : reach_avoid g D a b ->
  exists l, walk g (l ++ [b]) /\ NoDup (l ++ [b]) /\ hd 0%nat (l ++ [b]) = a /\ forall x, In x (l ++ [b]) -> reach_avoid g D a x.
Proof.
  induction 1 as [Ha|v w R (l & W & N & H & F) A Hw].
  - exists []. cbn. repeat split; auto; [repeat constructor; easy|]. intros x [<-|[]]. now constructor.
  - destruct (in_dec Nat.eq_dec w (l ++ [v])) as [I|I].
    + apply in_split in I as (l1 & l2 & E). exists l1. rewrite E in *.
      replace (l1 ++ w :: l2) with ((l1 ++ [w]) ++ l2) in * by now rewrite <- app_assoc.
      split; [now apply walk_prefix in W|]. split; [now apply NoDup_prefix in N|]. split.
      * rewrite <- app_assoc in H. cbn in H. now rewrite hd_app1 in H.
      * intros x Hx. apply F. apply in_app_iff. now left.
    + exists (l ++ [v]). rewrite <- app_assoc. cbn [app]. split; [now apply walk_join|]. split; [|split].
      * change (l ++ [v; w]) with (l ++ [v] ++ [w]). rewrite app_assoc. apply NoDup_app_intro; auto; [repeat constructor; easy|].
        intros x Hx [<-|[]]. contradiction.
      * now rewrite hd_app1.
      * intros x Hx. change (l ++ [v; w]) with (l ++ [v] ++ [w]) in Hx. rewrite app_assoc in Hx. apply in_app_iff in Hx as [Hx|[<-|[]]]; [now apply F|].
        eapply ra_step; eauto.
Qed.

Section Sound.
  Variable g : graph.
  Hypothesis wf : wf_graph g.
  Hypothesis sym : symmetric g.
  Variable T : nat -> Z.
  Local Notation V := artic_visitor.

  (** Removing [u] separates [c] and [p] if the set [X] is left only through [u]. *)
  Lemma separated u c p X : arc g u c -> arc g u p \/ arc g p u -> In c X -> ~ In p X -> ~ In u X -> p <> u ->
    (forall x y, In x X -> arc g x y -> In y X \/ y = u) -> cut_vertex g u.
  Proof.
    intros A B Ic Ip Iu Np C. exists c, p. split; [intros ->; contradiction|]. split; [assumption|]. split.
    - apply reach_trans with u; apply reach_arc; [now apply sym|]. destruct B; [assumption|now apply sym].
    - intros R. assert (forall z, reach_avoid g [u] c z -> In z X) as H.
      { induction 1 as [|z w R0 IH Az Nz]; [assumption|]. destruct (C z w IH Az) as [?| ->]; [assumption|]. destruct Nz. now left. }
      apply Ip. now apply H.
  Qed.
  Lemma edge_above X G : (exists x a, In x X /\ In a G /\ arc g x a) \/ (forall x a, In x X -> In a G -> ~ arc g x a).
  Proof.
    assert (forall x, (exists a, In a G /\ arc g x a) \/ (forall a, In a G -> ~ arc g x a)) as H.
    { intros x. destruct (existsb (fun e => existsb (Nat.eqb (e_tgt e)) G) (g_out g x)) eqn:E.
      - apply existsb_exists in E as (e & He & E). apply existsb_exists in E as (a & Ha & E). apply Nat.eqb_eq in E. left. exists a. split; [assumption|]. now exists e.
      - right. intros a Ha (e & He & Et). assert (existsb (fun e => existsb (Nat.eqb (e_tgt e)) G) (g_out g x) = true) as Q; [|congruence].
        apply existsb_exists. exists e. split; [assumption|]. apply existsb_exists. exists a. split; [assumption|]. now apply Nat.eqb_eq. }
    induction X as [|x X [(y & a & Hy & Ha & A)|IH]]; [right; easy| left; exists y, a; split; [now right|auto] |].
    destruct (H x) as [(a & Ha & A)|N]; [left; exists x; exists a; split; [now left|auto]|]. right. intros y a [<-|Hy]; auto.
  Qed.

  Definition on_cycle (u : nat) : Prop := exists l, long_cycle g l /\ In u l.
  (** Non-tree edges to vertices on the stack were taken into account. *)
  Definition low_le (u : nat) (Q : list edge) (G : list nat) (s : artic) : Prop :=
    forall e, In e Q -> In (e_tgt e) G -> ap_low s u <= T (e_tgt e).
  Definition root_ok (u : nat) (G X : list nat) (s : artic) : Prop :=
    G = [] -> (ap_children s <= 0 \/ exists x, arc g u x /\ In x X /\ x <> u) /\ (1 < ap_children s -> cut_vertex g u).
  Definition reported (r : nat) (X : list nat) (s s' : artic) : Prop :=
    forall x, ap_map s' x = true -> ap_map s x = true \/ cut_vertex g x \/ (x <> r /\ In x X /\ on_cycle x).

  Lemma visit_scan_sound r :
    (forall u D t D', visit g u D t D' -> ~ In u D -> (u < g_n g)%nat -> times T D' ->
       forall G s, ainv T D s -> ~ In u G -> NoDup G -> incl G D -> chain g (u :: G) -> (forall b v, In b D -> ~ In b G -> arc g b v -> In v D) ->
       ap_root s = r -> (match G with [] => u = r /\ ap_children s = 0 | _ => In r G end) ->
       let s' := run V t s in
       ainv T D' s' /\ low_le u (g_out g u) G s' /\ root_ok u G (rev (discovers t)) s' /\ reported r (rev (discovers t)) s s' /\
       ap_root s' = r /\ (G <> [] -> ap_children s' = ap_children s) /\ (forall v, In v D -> ap_low s' v = ap_low s v)) /\
    (forall u es D t D', scan_es g u es D t D' -> times T D' ->
       forall G s D0 X Q, Q ++ es = g_out g u -> D = X ++ D0 -> In u X -> ~ In u D0 ->
       ainv T D s -> ~ In u G -> NoDup G -> incl G D0 -> chain g (u :: G) -> (forall b v, In b D -> ~ In b (u :: G) -> arc g b v -> In v D) ->
       (forall b v, In b D0 -> ~ In b G -> arc g b v -> In v D0) ->
       ap_root s = r -> (match G with [] => u = r | _ => In r G end) ->
       low_le u Q G s -> root_ok u G X s ->
       let s' := run V t s in
       ainv T D' s' /\ low_le u (g_out g u) G s' /\ root_ok u G (rev (discovers t) ++ X) s' /\ reported r (rev (discovers t) ++ X) s s' /\
       ap_root s' = r /\ (G <> [] -> ap_children s' = ap_children s) /\ (forall v, In v D -> v <> u -> ap_low s' v = ap_low s v)).
  Proof.
    apply visit_scan_ind.
    - intros u D t D' H IH Hu Lu HT G s I HuG NG GD HC Cl Rr Hr. cbv zeta.
      change (run V (EDiscover u :: EStart u :: t) s) with (run V t (v_step V (EStart u) s)).
      set (s1 := v_step V (EStart u) s). pose proof (scan_times _ _ _ _ _ _ _ H HT) as HTu.
      pose proof (times_head _ _ _ HTu) as Tu.
      assert (ainv T (u :: D) s1) as I1.
      { destruct I. split; cbn [ap_now ap_time s1 v_step artic_visitor to_visitor c_step articulation_finder].
        - cbn [length]. lia.
        - intros v [<-|Hv]; [rewrite upd_same; lia|]. rewrite upd_other; [auto|]. intros ->. contradiction. }
      change (rev (discovers (EDiscover u :: EStart u :: t))) with (rev (discovers t) ++ [u]).
      destruct (IH HT G s1 D [u] []) as (A1 & A2 & A3 & A4 & A5 & A6 & A7); auto.
      + now left.
      + intros b v [<-|Hb] Hg Ha; [destruct Hg; now left|]. right. apply (Cl b v); auto. intro; apply Hg; now right.
      + destruct G; tauto.
      + easy.
      + intros ->. destruct Hr as (_ & Hr). cbn. rewrite Hr. split; [left; lia | lia].
      + split; [assumption|]. split; [assumption|]. split; [assumption|]. split; [exact A4|]. split; [assumption|]. split; [exact A6|].
        intros v Hv. assert (v <> u) by (intros ->; contradiction). rewrite A7; [|now right | assumption]. cbn. now apply upd_other.
    - intros u D HT G s D0 X Q EQ -> HuX HuD I HuG NG GD HC Cl Bl Rr Hr Lo Ro. cbv zeta.
      change (run V [EFinish u] s) with s. change (rev (discovers [EFinish u]) ++ X) with X. rewrite app_nil_r in EQ. subst Q.
      split; [assumption|]. split; [assumption|]. split; [assumption|]. split; [intros x Hx; now left|]. auto.
    - intros u e es D t D' Hi H IH HT G s D0 X Q EQ -> HuX HuD I HuG NG GD HC Cl Bl Rr Hr Lo Ro. cbv zeta.
      change (run V (ENonTree e :: t) s) with (run V t (v_step V (ENonTree e) s)).
      change (discovers (ENonTree e :: t)) with (discovers t). set (s1 := v_step V (ENonTree e) s).
      assert (In e (g_out g u)) as He by (rewrite <- EQ; apply in_app_iff; right; now left).
      destruct (wf _ _ He) as (E1 & E2).
      assert (ap_map s1 = ap_map s /\ ap_time s1 = ap_time s /\ ap_root s1 = ap_root s /\ ap_now s1 = ap_now s /\ ap_children s1 = ap_children s /\
        ap_low s1 = if T (e_tgt e) <? ap_low s u then upd (ap_low s) u (T (e_tgt e)) else ap_low s) as (B1 & B2 & B3 & B4 & B5 & B6).
      { unfold s1. cbn. rewrite E1, (ai_time _ _ _ I _ Hi). repeat split. }
      destruct (IH HT G s1 D0 X (Q ++ [e])) as (A1 & A2 & A3 & A4 & A5 & A6 & A7); auto.
      + rewrite <- app_assoc. exact EQ.
      + destruct I. split; [now rewrite B4 | now rewrite B2].
      + intros e' He' Hg. rewrite B6. apply in_app_iff in He'. destruct (Z.ltb_spec (T (e_tgt e)) (ap_low s u)) as [Hl|Hl].
        * rewrite upd_same. destruct He' as [He'|[<-|[]]]; [specialize (Lo e' He' Hg); lia | lia].
        * destruct He' as [He'|[<-|[]]]; auto.
      + split; [assumption|]. split; [assumption|]. split; [assumption|]. split; [|split; [assumption|split]].
        * intros x Hx. apply A4 in Hx. now rewrite B1 in Hx.
        * intros Hg. rewrite A6 by assumption. assumption.
        * intros v Hv Hn. rewrite A7 by assumption. rewrite B6. destruct (T (e_tgt e) <? ap_low s u); [now apply upd_other | reflexivity].
    - intros u e es D t1 D1 t2 D' Hn H1 IH1 H2 IH2 HT G s D0 X Q EQ -> HuX HuD I HuG NG GD HC Cl Bl Rr Hr Lo Ro. cbv zeta.
      set (D := X ++ D0) in *. assert (In u D) as Hu by (apply in_app_iff; now left).
      assert (In e (g_out g u)) as He by (rewrite <- EQ; apply in_app_iff; right; now left).
      destruct (wf _ _ He) as (E1 & E2). set (c := e_tgt e) in *.
      assert (run V (ETreeStart e :: t1 ++ ETreeFinish e :: t2) s = run V t2 (v_step V (ETreeFinish e) (run V t1 s))) as ->.
      { change (run V (t1 ++ ETreeFinish e :: t2) s = run V t2 (v_step V (ETreeFinish e) (run V t1 s))). now rewrite run_app. }
      change (discovers (ETreeStart e :: t1 ++ ETreeFinish e :: t2)) with (discovers (t1 ++ ETreeFinish e :: t2)).
      rewrite discovers_app. change (discovers (ETreeFinish e :: t2)) with (discovers t2).
      pose proof (scan_times _ _ _ _ _ _ _ H2 HT) as HT1.
      assert (incl (u :: G) D) as GD1.
      { intros b [<-|Hb]; [assumption|]. apply in_app_iff. right. auto. }
      assert (~ In c (u :: G)) as HcG by (intro Y; apply Hn; auto).
      assert (c <> u) as Hcu by (intros Y; apply HcG; left; auto).
      assert (arc g u c) as Ha by now exists e.
      assert (NoDup (u :: G)) as NG1 by now constructor.
      destruct (IH1 Hn E2 HT1 (u :: G) s I HcG NG1 GD1 (conj Ha HC) Cl Rr) as (I1 & L1 & T1 & S1 & R1 & C1 & K1).
      { destruct G; [now left | now right]. }
      clear IH1 T1. specialize (C1 ltac:(discriminate)). set (s1 := run V t1 s) in *. set (Xc := rev (discovers t1)) in *.
      assert (D1 = Xc ++ D) as ED1 by exact (proj1 (visit_scan_discovers g) _ _ _ _ H1).
      rewrite ED1 in HT1, I1.
      assert (In c Xc) as HcX by (apply -> in_rev; now apply (visit_discovers_root _ _ _ _ _ H1)).
      assert (forall x, In x Xc -> ~ In x D) as XD by (intros x Hx Hd; pose proof (times_before T Xc D x x HT1 Hx Hd); lia).
      assert (forall x y, In x Xc -> arc g x y -> In y Xc \/ In y (u :: G)) as Exit.
      { intros x y Hx Hxy. assert (In y D1) as Hy by (apply (proj1 (visit_scan_closed g) _ _ _ _ H1 x); [now apply in_rev|assumption]).
        rewrite ED1 in Hy. apply in_app_iff in Hy as [Hy|Hy]; [now left|]. right.
        destruct (in_dec Nat.eq_dec y (u :: G)) as [?|Ny]; [assumption|]. destruct (XD x Hx). apply (Cl y x Hy Ny). now apply sym. }
      assert (ap_time s1 u = T u) as Tu by (apply (ai_time _ _ _ I1); apply in_app_iff; now right).
      set (s3 := v_step V (ETreeFinish e) s1).
      assert (ap_now s3 = ap_now s1 /\ ap_time s3 = ap_time s1 /\ ap_low s3 = ap_low s1 /\ ap_root s3 = ap_root s1 /\
        ap_map s3 = (if (T u <=? ap_low s1 c) && negb (u =? r)%nat then upd (ap_map s1) u true else ap_map s1) /\
        ap_children s3 = if (T u <=? ap_low s1 c) && (u =? r)%nat then ap_children s1 + 1 else ap_children s1) as (B1 & B2 & B3 & B4 & B5 & B6).
      { unfold s3. cbn [v_step artic_visitor to_visitor c_step articulation_finder]. rewrite E1, Tu. fold c. rewrite R1.
        destruct (T u <=? ap_low s1 c); [|cbn; repeat split; congruence].
        destruct (ap_pop_while _ _ _ _) as (m & st). cbn. destruct (u =? r)%nat; cbn; repeat split; congruence. }
      assert (root_ok u G (Xc ++ X) s3) as T3.
      { intros ->. subst u. specialize (Ro eq_refl) as (K0 & K2). rewrite B6, C1, Nat.eqb_refl, andb_true_r. split.
        - right. exists c. split; [assumption|]. split; [apply in_app_iff; now left | assumption].
        - destruct (T r <=? ap_low s1 c); [|assumption]. intros Hk. destruct K0 as [K0|(x & Ax & Hx & Nx)]; [lia|].
          apply (separated r c x Xc); auto.
          + intros Y. apply (XD x Y). apply in_app_iff. now left.
          + intros Y. now apply (XD r Y).
          + intros y z Hy Hz. destruct (Exit y z Hy Hz) as [?|[<-|[]]]; auto. }
      assert (reported r (Xc ++ X) s s3) as M3.
      { intros x Hx. rewrite B5 in Hx. assert (ap_map s1 x = true -> ap_map s x = true \/ cut_vertex g x \/ (x <> r /\ In x (Xc ++ X) /\ on_cycle x)) as Old.
        { intros Y. apply S1 in Y as [?|[?|(Y1 & Y2 & Y3)]]; [now left | right; now left |]. right. right. split; [assumption|]. split; [apply in_app_iff; now left | assumption]. }
        destruct ((T u <=? ap_low s1 c) && negb (u =? r)%nat) eqn:EB; [|auto]. apply andb_true_iff in EB as [Hl Hur]. apply Z.leb_le in Hl.
        apply negb_true_iff, Nat.eqb_neq in Hur. unfold upd in Hx. destruct (Nat.eqb_spec x u) as [Exu|]; [|auto]. rewrite Exu. clear Old Hx Exu x. right.
        destruct G as [|p G']; [congruence|].
        destruct (edge_above Xc (p :: G')) as [(x & a & Hx1 & Ha1 & Axa)|None].
        - right. split; [assumption|]. split; [apply in_app_iff; now right|].
          assert (x <> c) as Nxc.
          { intros ->. destruct Axa as (e' & He' & <-). pose proof (L1 e' He' (or_intror Ha1)) as Q1.
            assert (T (e_tgt e') < T u) by (apply (times_before T X D0); [now apply times_app in HT1 | assumption | now apply GD]). lia. }
          destruct (simple_path g D c x) as (l & Wl & Nl & Hl1 & Fl).
          { apply (white_path g c D t1 D1 x H1 Hn). now apply in_rev. }
          assert (forall y, In y (l ++ [x]) -> ~ In y D) as Ld by (intros y Hy; apply (reach_avoid_end g D c); now apply Fl).
          apply in_split in Ha1 as (G1 & G2 & EG). rewrite EG in *.
          assert (chain g (u :: G1 ++ [a])) as Ch.
          { apply chain_app with G2. cbn [app]. rewrite <- app_assoc. exact HC. }
          assert (rev (u :: G1 ++ [a]) = a :: rev G1 ++ [u]) as Er by (cbn [rev]; now rewrite rev_app_distr).
          exists (l ++ x :: a :: rev G1 ++ [u]). split.
          + split; [|split; [|split]].
            * replace (l ++ x :: a :: rev G1 ++ [u]) with ((l ++ [x]) ++ rev (u :: G1 ++ [a])) by (rewrite Er, <- app_assoc; reflexivity).
              apply NoDup_app_intro; [assumption | |].
              -- apply NoDup_rev. apply NoDup_prefix with G2. cbn [app]. rewrite <- app_assoc. exact NG1.
              -- intros y Hy Hy2. apply (Ld y Hy). apply GD1. apply in_rev in Hy2. destruct Hy2 as [<-|Hy2]; [now left|]. right.
                 apply in_app_iff in Hy2. apply in_app_iff. destruct Hy2 as [?|[<-|[]]]; [now left|right; now left].
            * rewrite app_length. cbn [length]. rewrite app_length. cbn [length]. destruct l as [|b l]; [cbn in Hl1; congruence|]. cbn [length]. lia.
            * apply walk_join; auto. rewrite <- Er. now apply chain_walk.
            * replace (l ++ x :: a :: rev G1 ++ [u]) with ((l ++ x :: a :: rev G1) ++ [u]) by (rewrite <- app_assoc; reflexivity).
              rewrite last_last. rewrite <- app_assoc. cbn [app]. rewrite hd_app1, Hl1. assumption.
          + apply in_app_iff. right. right. right. apply in_app_iff. right. now left.
        - left. destruct HC as (Ap & _). apply (separated u c p Xc); auto.
          + intros Y. apply (XD p Y). apply GD1. right. now left.
          + intros Y. now apply (XD u Y).
          + intros ->. apply HuG. now left.
          + intros y z Hy Hz. destruct (Exit y z Hy Hz) as [?|[<-|Hg]]; auto. destruct (None y z Hy Hg Hz). }
      assert (low_le u (Q ++ [e]) G s3) as L3.
      { intros e' He' Hg. rewrite B3, K1 by assumption. apply in_app_iff in He' as [He'|[<-|[]]]; [auto|]. destruct HcG. now right. }
      destruct (IH2 HT G s3 D0 (Xc ++ X) (Q ++ [e])) as (A1 & A2 & A3 & A4 & A5 & A6 & A7); auto.
      + rewrite <- app_assoc. exact EQ.
      + rewrite <- app_assoc. exact ED1.
      + apply in_app_iff. now right.
      + rewrite ED1. destruct I1. split; [now rewrite B1 | now rewrite B2].
      + intros b v Hb Hg Hbv. rewrite ED1 in Hb. apply in_app_iff in Hb. destruct Hb as [Hb|Hb].
        * apply in_rev in Hb. now apply (proj1 (visit_scan_closed g) _ _ _ _ H1 b).
        * rewrite ED1. apply in_app_iff. right. now apply (Cl b).
      + congruence.
      + assert (rev (discovers t2) ++ Xc ++ X = rev (discovers t1 ++ discovers t2) ++ X) as Er.
        { rewrite rev_app_distr, <- app_assoc. reflexivity. }
        rewrite Er in A3, A4. split; [assumption|]. split; [assumption|]. split; [assumption|]. split; [|split; [assumption|split]].
        * intros x Hx. apply A4 in Hx as [Hx|[?|?]]; [|now right; left | now right; right].
          apply M3 in Hx as [?|[?|(Y1 & Y2 & Y3)]]; [now left | now right; left |]. right. right. split; [assumption|]. split; [|assumption].
          rewrite <- Er. apply in_app_iff. now right.
        * intros Hg. rewrite A6 by assumption. rewrite B6, C1. destruct G as [|p G']; [congruence|].
          assert (u <> r) as Hur by (intros ->; contradiction). apply Nat.eqb_neq in Hur as ->. now rewrite andb_false_r.
        * intros v Hv Hvu. rewrite A7; [|rewrite ED1; apply in_app_iff; now right | assumption]. rewrite B3. auto.
  Qed.

  (** A vertex that the roots before it did not discover. *)
  Definition later (u : nat) : Prop := exists r, (r < u)%nat /\ reach g r u.
  Lemma forest_sound rs D t D' : forest g rs D t D' -> (forall r, In r rs -> (r < g_n g)%nat) ->
    (exists n m, rs = seq n m /\ forall v, (v < n)%nat -> In v D) ->
    times T D' -> (forall b v, In b D -> arc g b v -> In v D) -> forall s, ainv T D s ->
    forall x, ap_map (run V t s) x = true -> ap_map s x = true \/ cut_vertex g x \/ (later x /\ on_cycle x).
  Proof.
    induction 1 as [D|r rs D t D' Hi F IH|r rs D t1 D1 t2 D' Hn H1 H2 IH]; intros Hr (n & m & En & Dn) HT Cl s I; [now left| |].
    - destruct m as [|m]; [discriminate|]. injection En as -> En. apply IH; auto; [intros; apply Hr; now right|].
      exists (S n), m. split; [assumption|]. intros v Hv. destruct (Nat.eq_dec v n) as [->|]; [assumption|]. apply Dn. lia.
    - destruct m as [|m]; [discriminate|]. injection En as -> En.
      set (s0 := v_step V (ESearchStart n) s).
      assert (run V (ESearchStart n :: t1 ++ ESearchFinish (Some n) :: t2) s = run V t2 (v_step V (ESearchFinish (Some n)) (run V t1 s0))) as ->.
      { change (run V (t1 ++ ESearchFinish (Some n) :: t2) s0 = run V t2 (v_step V (ESearchFinish (Some n)) (run V t1 s0))). now rewrite run_app. }
      assert (times T D1) as HT1 by (destruct (forest_suffix _ _ _ _ _ H2) as (X & ->); now apply times_app in HT).
      destruct (proj1 (visit_scan_sound n) n D t1 D1 H1 Hn (Hr n (or_introl eq_refl)) HT1 [] s0) as (I1 & _ & R1 & M1 & _); try easy.
      { destruct I. now split. }
      { constructor. }
      { intros b v Hb _. now apply Cl. }
      set (s1 := run V t1 s0) in *. specialize (R1 eq_refl) as (_ & R1).
      assert (ap_map (v_step V (ESearchFinish (Some n)) s1) = if 1 <? ap_children s1 then upd (ap_map s1) n true else ap_map s1) as Em.
      { cbn. now destruct (1 <? ap_children s1). }
      intros x Hx. apply IH in Hx.
      + destruct Hx as [Hx|Hx]; [|now right]. rewrite Em in Hx.
        assert (ap_map s1 x = true -> ap_map s x = true \/ cut_vertex g x \/ (later x /\ on_cycle x)) as Old.
        { intros Y. apply M1 in Y as [Y|[Y|(Y1 & Y2 & Y3)]]; [now left | now right; left |]. right. right. split; [|assumption].
          apply in_rev in Y2. exists n. split.
          - assert (~ In x D) as Nx by (apply (proj1 (visit_scan_new g) _ _ _ _ H1 Hn), Y2).
            destruct (Nat.lt_trichotomy n x) as [?|[?|Hlt]]; [assumption | congruence |]. destruct Nx. now apply Dn.
          - apply (reach_avoid_reach g D). now apply (white_path g n D t1 D1 x H1 Hn). }
        destruct (Z.ltb_spec 1 (ap_children s1)) as [Hc|Hc]; [|auto]. unfold upd in Hx. destruct (Nat.eqb_spec x n) as [Exn|]; [rewrite Exn|]; auto.
      + intros; apply Hr; now right.
      + exists (S n), m. split; [assumption|]. intros v Hv. destruct (Nat.eq_dec v n) as [->|].
        * apply (visit_in _ _ _ _ _ _ H1). left. now apply (visit_discovers_root _ _ _ _ _ H1).
        * apply (visit_incl _ _ _ _ _ H1). apply Dn. lia.
      + assumption.
      + intros b v Hb Ha. apply (visit_in _ _ _ _ _ _ H1) in Hb. destruct Hb as [Hb|Hb].
        * now apply (proj1 (visit_scan_closed g) _ _ _ _ H1 b).
        * apply (visit_incl _ _ _ _ _ H1). now apply (Cl b).
      + destruct I1. cbn. destruct (1 <? ap_children s1); split; assumption.
  Qed.
End Sound.

Theorem artic_sound g am cm : wf_graph g -> symmetric g ->
  exists k s, (forall f, (k <= f)%nat -> find_articulation_points f g am cm = Ok s) /\
    (forall u, (u < g_n g)%nat -> cut_vertex g u -> ap_map s u = true) /\
    forall u, ap_map s u = true -> am u = true \/ cut_vertex g u \/
      ((exists r, (r < u)%nat /\ reach g r u) /\ exists l, long_cycle g l /\ In u l).
Proof.
  intros wf sym. destruct (artic_refines g am cm wf sym) as (k0 & s0 & Es & Comp).
  assert (forall us s, exists tm, fold_left (fun s u => v_step artic_visitor (EInit u) s) us s =
    {| ap_map := ap_map s; ap_cmap := ap_cmap s; ap_stack := ap_stack s; ap_cn := ap_cn s; ap_time := tm; ap_low := ap_low s;
       ap_root := ap_root s; ap_now := ap_now s; ap_children := ap_children s |} /\ tm = fold_left (fun m u => upd m u 0) us (ap_time s)) as Ei.
  { induction us as [|u us IH]; intros [? ? ? ? ? ? ? ? ?]; [eexists; split; reflexivity|]. cbn [fold_left].
    edestruct IH as (tm & -> & ->). eexists. split; reflexivity. }
  destruct (Ei (vertices g) (artic_init am cm)) as (tm & E0 & Et).
  destruct (dfs_all_run artic_visitor g (artic_ok g) wf (artic_disciplined g) (artic_init am cm)) as (t & D' & F & R & k & E).
  { unfold init_all. rewrite E0. split; [cbn; lia|]. split; [easy|]. cbn. intros v Hv _. rewrite Et. apply fold_upd. now apply in_vertices. }
  exists k. eexists. split; [exact E|]. split.
  - intros u Hu Cu. specialize (Comp u Hu Cu). specialize (E (Nat.max k k0) ltac:(lia)). specialize (Es (Nat.max k k0) ltac:(lia)).
    unfold find_articulation_points in Es. rewrite E in Es. injection Es as ->. assumption.
  - intros u Hu.
    assert (NoDup D') as ND by (apply (forest_nodup _ _ _ _ _ F); constructor).
    destruct (times_exists D' ND) as (T & HT).
    apply (forest_sound g wf sym T (vertices g) [] t D' F) in Hu; auto.
    + unfold init_all in Hu. rewrite E0 in Hu. exact Hu.
    + intros r. apply in_vertices.
    + exists 0%nat, (g_n g). split; [reflexivity|]. lia.
    + unfold init_all. rewrite E0. split; [reflexivity | easy].
Qed.
