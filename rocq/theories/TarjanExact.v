(** What find_strong_components guarantees: every vertex is labelled, vertices with
    equal labels are mutually reachable, labels do not grow along an arc that leaves its
    component, and in the graphs described by [no_theta] mutually reachable vertices
    have equal labels. *)
From Coq Require Import ZArith List Bool PeanoNat Lia Permutation.
From Verif Require Import Outcome GraphModel DfsProofs DfsResults TarjanProofs BridgeProofs ArticProofs ArticSound.
Import ListNotations.
Local Open Scope Z_scope.

(** ** Specification *)
(** Two ways from [a] to [x] with no common vertex inside, and a way back from [x] to [a];
    the second way enters [x] from [z]. *)
Definition theta (g : graph) (a x z : nat) (p q : list nat) : Prop :=
  reach g x a /\ walk g (a :: p ++ [x]) /\ walk g (a :: q ++ [z; x]) /\ NoDup (a :: p ++ q ++ [z; x]).
Definition no_theta (g : graph) : Prop := forall a x z p q, theta g a x z p q -> arc g x z.

(** ** Walks *)
Lemma walk_glue g l1 x l2 : walk g (l1 ++ [x]) -> walk g (x :: l2) -> walk g (l1 ++ x :: l2).
Proof. destruct l2 as [|y l2]; [easy|]. intros A [B C]. now apply walk_join. Qed.
Lemma walk_reach g x l y : walk g (x :: l ++ [y]) -> reach g x y.
Proof.
  revert x. induction l as [|z l IH]; intros x [A W]; [now apply reach_arc|]. apply reach_trans with z; [now apply reach_arc | now apply IH].
Qed.
Lemma reach_exit g (S : list nat) v w : reach g v w -> In v S -> ~ In w S ->
  exists z x, In z S /\ ~ In x S /\ arc g z x /\ reach g v z /\ reach g x w.
Proof.
  induction 1 as [|y w R IH A]; intros Hv Hw; [contradiction|]. destruct (in_dec Nat.eq_dec y S) as [Hy|Hy].
  - exists y, w. repeat split; auto. apply reach_refl.
  - destruct (IH Hv Hy) as (z & x & Hz & Hx & Az & Rz & Rx). exists z, x. repeat split; auto. eapply reach_step; eauto.
Qed.
Lemma reach_meets g A v w : ~ In v A -> reach g v w -> reach_avoid g A v w \/ exists b, In b A /\ reach g v b.
Proof.
  intros Hv. induction 1 as [|y w R [IH|IH] Ar]; [left; now constructor | | now right].
  destruct (in_dec Nat.eq_dec w A) as [Hw|Hw]; [right; exists w; split; [assumption | eapply reach_step; eauto] | left; eapply ra_step; eauto].
Qed.
Lemma times_onto T D k : times T D -> 1 <= k <= Z.of_nat (length D) -> exists y, In y D /\ T y = k.
Proof.
  induction D as [|x D IH]; cbn [length]; intros HT Hk; [lia|]. destruct HT as (A & B). cbn [length] in A.
  destruct (Z.eq_dec k (Z.of_nat (S (length D)))) as [->|]; [exists x; split; [now left | assumption]|].
  destruct IH as (y & Hy & E); [assumption | lia |]. exists y. split; [now right | assumption].
Qed.

(** ** The vertices that are finished *)
(** [G] holds the vertices being visited, the latest first. A finished vertex belongs to an
    earlier tree, or there is a way to it from a vertex of [G] through finished vertices. *)
Record black (g : graph) (G D : list nat) : Prop := {
  bk_gray b : In b G -> In b D;
  bk_nd : NoDup G;
  bk_arc x y : In x D -> ~ In x G -> arc g x y -> In y D;
  bk_in x : In x D -> ~ In x G -> (forall y, reach g x y -> In y D /\ ~ In y G) \/
    exists G1 a G2 p, G = G1 ++ a :: G2 /\ walk g (a :: p ++ [x]) /\ NoDup (a :: p ++ [x]) /\
      (forall y, In y (p ++ [x]) -> In y D /\ ~ In y G) /\
      forall y, reach_avoid g (a :: G2) x y -> In y D /\ ~ In y G }.
Lemma black_push g u G D : black g G D -> ~ In u D -> black g (u :: G) (u :: D).
Proof.
  intros B Hu. assert (forall y, In y D /\ ~ In y G -> In y (u :: D) /\ ~ In y (u :: G)) as K.
  { intros y (Hy & Hg). split; [now right|]. intros [<-|?]; contradiction. }
  split.
  - intros b [<-|Hb]; [now left | right; now apply (bk_gray _ _ _ B)].
  - constructor; [|exact (bk_nd _ _ _ B)]. intro X. now apply Hu, (bk_gray _ _ _ B).
  - intros x y Hx Hg A. cbn in Hg. destruct Hx as [<-|Hx]; [tauto|]. right. apply (bk_arc _ _ _ B x y); tauto.
  - intros x Hx Hg. cbn in Hg. destruct Hx as [<-|Hx]; [tauto|]. destruct (bk_in _ _ _ B x) as [H|(G1 & a & G2 & p & E & W & N & F & C)]; [assumption | tauto | left; auto |].
    right. exists (u :: G1), a, G2, p. split; [now rewrite E|]. repeat (split; [assumption|]). split; auto.
Qed.
Lemma black_closed g c G D x y : black g (c :: G) D -> (forall y, arc g c y -> In y D) -> In x D -> ~ In x G -> reach_avoid g G x y -> In y D /\ ~ In y G.
Proof.
  intros B Hc Hx Hg. induction 1 as [|y w R IH A Hw]; [now split|]. split; [|assumption]. destruct IH as (Hy & Hyg).
  destruct (Nat.eq_dec y c) as [->|n]; [auto|]. apply (bk_arc _ _ _ B y w); auto. intros [?|?]; [congruence | contradiction].
Qed.
Lemma black_pop g c p G D : black g (c :: p :: G) D -> arc g p c -> (forall y, arc g c y -> In y D) -> black g (p :: G) D.
Proof.
  intros B A Hc. pose proof (bk_nd _ _ _ B) as N. inversion_clear N as [|? ? Nc Np].
  assert (p <> c) as Hpc by (intros ->; apply Nc; now left).
  split.
  - intros b Hb. apply (bk_gray _ _ _ B). now right.
  - assumption.
  - intros x y Hx Hg Ax. destruct (Nat.eq_dec x c) as [->|n]; [auto|]. apply (bk_arc _ _ _ B x y); auto. intros [?|?]; [congruence | contradiction].
  - intros x Hx Hg. pose proof (fun y => black_closed g c (p :: G) D x y B Hc Hx Hg) as Cl. destruct (Nat.eq_dec x c) as [->|n].
    + right. exists [], p, G, []. cbn [app]. split; [reflexivity|]. split; [now split|].
      split; [constructor; [intros [?|[]]; congruence | constructor; [easy | constructor]]|]. split; [|assumption].
      intros y [<-|[]]. now split.
    + destruct (bk_in _ _ _ B x) as [H|(G1 & a & G2 & q & E & W & Nd & F & C)]; [assumption | intros [?|?]; [congruence | contradiction] | |].
      * left. intros y Hy. destruct (H y Hy) as (? & Hn). split; [assumption|]. intro. apply Hn. now right.
      * right. destruct G1 as [|c' G1].
        -- injection E as <- <-. exists [], p, G, (c :: q). cbn [app] in *. split; [reflexivity|]. split; [now split|]. split; [|split; [|assumption]].
           ++ constructor; [|assumption]. intros [?|Hp]; [congruence|]. destruct (F p Hp) as (_ & Hn). apply Hn. right. now left.
           ++ intros y [<-|Hy]; [split; [apply (bk_gray _ _ _ B); now left | assumption]|]. destruct (F y Hy) as (? & Hn). split; [assumption|]. intro. apply Hn. now right.
        -- injection E as <- E. exists G1, a, G2, q. split; [assumption|]. split; [assumption|]. split; [assumption|]. split.
           ++ intros y Hy. destruct (F y Hy) as (? & Hn). split; [assumption|]. intro. apply Hn. now right.
           ++ intros y Hy. destruct (C y Hy) as (? & Hn). split; [assumption|]. intro. apply Hn. now right.
Qed.
Lemma black_root g r D : black g [r] D -> (forall y, arc g r y -> In y D) -> black g [] D.
Proof.
  intros B Hc. assert (forall x y, In x D -> arc g x y -> In y D) as K.
  { intros x y Hx A. destruct (Nat.eq_dec x r) as [->|n]; [auto|]. apply (bk_arc _ _ _ B x y); auto. intros [?|[]]; congruence. }
  split; [easy | constructor | eauto |].
  intros x Hx _. left. induction 1 as [|y w R (IH & _) A]; [auto|]. split; [eauto | easy].
Qed.
Lemma visit_scan_black g :
  (forall u D t D', visit g u D t D' -> ~ In u D -> forall G, black g G D -> black g (u :: G) D') /\
  (forall u es D t D', scan_es g u es D t D' -> incl es (g_out g u) -> forall G, black g (u :: G) D -> black g (u :: G) D').
Proof.
  apply visit_scan_ind.
  - intros u D t D' H IH Hu G B. apply IH; [apply incl_refl|]. now apply black_push.
  - auto.
  - intros u e es D t D' Hi H IH Hes G B. apply IH; auto. intros x Hx. apply Hes. now right.
  - intros u e es D t1 D1 t2 D' Hn H1 IH1 H2 IH2 Hes G B. apply IH2; [intros x Hx; apply Hes; now right|].
    apply black_pop with (e_tgt e); [now apply IH1 | exists e; split; [apply Hes; now left | reflexivity] |].
    intros y. apply (proj1 (visit_scan_closed g) _ _ _ _ H1). now apply (visit_discovers_root _ _ _ _ _ H1).
Qed.

(** A tree that has no arc to the vertices above it, but reaches back to an older vertex, makes a theta. *)
Lemma theta_found g u D t D' G w : visit g u D t D' -> ~ In u D -> black g G D -> chain g (u :: G) ->
  (forall z x, In z (discovers t) -> In x G -> ~ arc g z x) -> In w D -> reach g u w -> reach g w u ->
  exists a x z p q, theta g a x z p q /\ ~ arc g x z.
Proof.
  intros H Hu B Ch No Hw Ruw Rwu.
  assert (forall v, In v (discovers t) -> ~ In v D) as New by exact (proj2 (proj1 (visit_scan_new g) _ _ _ _ H Hu)).
  destruct (reach_exit g (discovers t) u w Ruw) as (z & x & Hz & Hx & Azx & Ruz & Rxw).
  { now apply (visit_discovers_root _ _ _ _ _ H). }
  { intro X. now apply (New w). }
  assert (In x D) as HxD.
  { pose proof (proj1 (visit_scan_closed g) _ _ _ _ H z x Hz Azx) as I. apply (visit_in _ _ _ _ _ _ H) in I. tauto. }
  assert (~ In x G) as HxG by (intro X; now apply (No z x)).
  assert (reach g x u) as Rxu by (now apply reach_trans with w).
  destruct (bk_in _ _ _ B x HxD HxG) as [K|(G1 & a & G2 & p & E & W & N & F & C)]; [destruct (K u Rxu); contradiction|].
  assert (~ In x (a :: G2)) as Hxa by (intro X; apply HxG; rewrite E; apply in_app_iff; now right).
  assert (reach g x a) as Rxa.
  { destruct (reach_meets g (a :: G2) x u Hxa Rxu) as [R|(b & Hb & Rb)]; [destruct (C u R); contradiction|].
    apply reach_trans with b; [assumption|]. apply reach_avoid_reach with []. apply chain_reach with G2; auto.
    rewrite E in Ch. clear - Ch. revert u Ch. induction G1 as [|y G1 IH]; intros u Ch; [apply Ch|]. apply (IH y). apply Ch. }
  assert (reach_avoid g D u z) as Ra by now apply (white_path g u D t D').
  destruct (simple_path g D u z Ra) as (l & Wl & Nl & Hd & Fl).
  assert (forall y, In y (l ++ [z]) -> In y (discovers t)) as Sl by (intros y Hy; apply (white_path g u D t D' y H Hu); auto).
  assert (exists B, l ++ [z] = u :: B) as (Bl & El).
  { destruct l; cbn in Hd |- *; rewrite Hd; eauto. }
  assert (walk g (a :: rev G1 ++ u :: Bl)) as Wq.
  { change (walk g ((a :: rev G1) ++ u :: Bl)). apply walk_glue; [|now rewrite <- El].
    assert (chain g (u :: G1 ++ [a])) as Ch1.
    { rewrite E in Ch. apply chain_app with G2. cbn. rewrite <- app_assoc. exact Ch. }
    apply chain_walk in Ch1. cbn [rev] in Ch1. rewrite rev_app_distr in Ch1. exact Ch1. }
  assert (walk g (a :: (rev G1 ++ l) ++ [z; x])) as Wz.
  { change (walk g ((a :: rev G1 ++ l) ++ z :: x :: [])). apply walk_join; [|assumption | easy].
    cbn [app]. rewrite <- app_assoc, El. exact Wq. }
  exists a, x, z, p, (rev G1 ++ l). split; [split; [assumption|]; split; [assumption|]; split; [assumption|]|].
  - assert (forall y, In y p -> In y D /\ ~ In y G) as Fp by (intros y Hy; apply F, in_app_iff; now left).
    pose proof (bk_nd _ _ _ B) as NG. rewrite E in NG.
    assert (NoDup G1 /\ ~ In a G1) as (NG1 & Ha).
    { split; [now apply NoDup_prefix in NG|]. intro X. apply NoDup_remove_2 in NG. apply NG, in_app_iff. now left. }
    assert (In a G) as HaG by (rewrite E; apply in_app_iff; right; now left).
    assert (forall y, In y G1 -> In y G) as HG1 by (intros y Hy; rewrite E; apply in_app_iff; now left).
    pose proof (bk_gray _ _ _ B) as Gr.
    assert (~ In a p /\ NoDup p /\ ~ In x p) as (Hap & Np & Hxp).
    { inversion_clear N as [|? ? N1 N2]. rewrite in_app_iff in N1. split; [tauto|]. split; [now apply NoDup_prefix in N2|].
      apply NoDup_remove_2 in N2. now rewrite app_nil_r in N2. }
    rewrite <- app_assoc. change (l ++ [z; x]) with (l ++ [z] ++ [x]). rewrite (app_assoc l).
    assert (forall y, In y (rev G1 ++ (l ++ [z]) ++ [x]) -> In y G1 \/ In y (discovers t) \/ y = x) as Cs.
    { intros y. rewrite !in_app_iff, <- in_rev. intros [?|[Hy|[?|[]]]]; auto. rewrite <- in_app_iff in Hy. auto. }
    constructor.
    + rewrite in_app_iff. intros [?|X]; [contradiction|]. destruct (Cs a X) as [?|[Y| ->]]; [contradiction | | contradiction].
      now apply (New a Y), Gr.
    + apply NoDup_app_intro; [assumption | |].
      * apply NoDup_app_intro; [now apply NoDup_rev | |].
        -- apply NoDup_app_intro; [assumption | repeat constructor; easy |]. intros y Hy [<-|[]]. now apply (New x (Sl x Hy)).
        -- intros y Hy. apply in_rev in Hy. rewrite in_app_iff. intros [X|[<-|[]]]; [now apply (New y (Sl y X)), Gr, HG1 | now apply HxG, HG1].
      * intros y Hy X. destruct (Fp y Hy) as (Y1 & Y2). destruct (Cs y X) as [Y|[Y| ->]]; [now apply Y2, HG1 | now apply (New y Y) | contradiction].
  - intro A. apply (New z Hz). now apply (bk_arc _ _ _ B x z).
Qed.

(** ** Invariant *)
Section Tarjan.
  Variable g : graph.
  Hypothesis wf : wf_graph g.
  Hypothesis small : Z.of_nat (g_n g) < int_max.
  Variable T : nat -> Z.
  Local Notation V := tarjan_visitor.
  Local Notation cmap s := (cs_map (tj_c s)).

  (** [G]: vertices being visited; [P]: vertices waiting for a label. *)
  Record tinv (G D P : list nat) (s : tarjan) : Prop := {
    ti_now : tj_now s = Z.of_nat (length D);
    ti_black v : In v D -> ~ In v G -> tj_low s v = int_max;
    ti_gray b : In b G -> In b D /\ 1 <= tj_low s b <= T b;
    ti_white v : (v < g_n g)%nat -> ~ In v D -> tj_low s v = 0 /\ tj_not_root s v = false;
    ti_ub : cs_ub (tj_c s) = false;
    ti_stack : cs_stack (tj_c s) = P;
    ti_pin v : In v P -> In v D;
    ti_pnd : NoDup P;
    ti_lab v w : In v D -> In w D -> ~ In v P -> ~ In w P -> cmap s v = cmap s w -> reach g v w;
    ti_rng v : In v D -> ~ In v P -> 0 <= cmap s v < cs_n (tj_c s);
    ti_n : 0 <= cs_n (tj_c s);
    ti_pre v : In v P -> exists b, In b G /\ reach g v b;
    ti_rep v : In v D -> ~ In v P -> exists y, In y D /\ ~ In y P /\ tj_not_root s y = false /\ cmap s y = cmap s v;
    ti_top v w : In v D -> ~ In v P -> arc g v w -> In w D /\ (reach g w v \/ (~ In w P /\ cmap s w <= cmap s v)) }.
  (** About the current vertex [u] below [G]. *)
  Record tcur (u : nat) (G : list nat) (s : tarjan) : Prop := {
    tc_yes : tj_not_root s u = true -> exists b, In b G /\ reach g u b /\ tj_low s b <= tj_low s u;
    tc_no : tj_not_root s u = false -> tj_low s u = T u }.

  (** No vertex discovered during the visit of [v] has an arc to a vertex above [v]. *)
  Definition is_root (v : nat) : Prop := exists G D t D', visit g v D t D' /\ ~ In v D /\ (forall x, In x D -> (x < g_n g)%nat) /\
    black g G D /\ chain g (v :: G) /\ (forall z x, In z (discovers t) -> In x G -> ~ arc g z x) /\ times T D'.

  Lemma relax_black e s : tj_low s (e_tgt e) = int_max -> tj_low s (e_src e) <= int_max -> tj_relax e s = s.
  Proof. intros A B. unfold tj_relax. rewrite A. now destruct (Z.ltb_spec int_max (tj_low s (e_src e))); [lia|]. Qed.

  Lemma visit_scan_tarjan :
    (forall u D t D', visit g u D t D' -> ~ In u D -> (u < g_n g)%nat -> NoDup D -> (forall v, In v D -> (v < g_n g)%nat) -> times T D' ->
       forall G P s, tinv G D P s -> ~ In u G -> (forall b, In b G -> reach g b u) -> black g G D -> chain g (u :: G) ->
       let s' := run V t s in
       exists Z, tinv (u :: G) D' (Z ++ P) s' /\ tcur u G s' /\
         (forall v, In v D -> tj_low s' v = tj_low s v /\ tj_not_root s' v = tj_not_root s v) /\
         (forall v, In v Z -> reach g v u) /\ incl Z (discovers t) /\
         (tj_not_root s' u = false -> Z = []) /\
         (forall z x, In z (discovers t) -> In x G -> arc g z x -> tj_low s' u <= tj_low s x) /\
         (forall v, In v (discovers t) -> tj_not_root s' v = false -> is_root v)) /\
    (forall u es D t D', scan_es g u es D t D' -> In u D -> incl es (g_out g u) -> NoDup D -> (forall v, In v D -> (v < g_n g)%nat) -> times T D' ->
       forall G Z1 P s, tinv (u :: G) D (Z1 ++ u :: P) s -> tcur u G s -> ~ In u G -> (forall b, In b G -> reach g b u) ->
       (forall v, In v Z1 -> reach g v u) -> (forall v, In v Z1 -> reach g u v) ->
       black g (u :: G) D -> chain g (u :: G) -> (forall v w, In v Z1 -> arc g v w -> In w D) ->
       (forall e, In e (g_out g u) -> In e es \/ In (e_tgt e) D) ->
       let s' := run V t s in
       exists Z, tinv (u :: G) D' (Z ++ P) s' /\ tcur u G s' /\
         (forall v, In v D -> v <> u -> tj_low s' v = tj_low s v /\ tj_not_root s' v = tj_not_root s v) /\
         (forall v, In v Z -> reach g v u) /\ incl Z (u :: Z1 ++ discovers t) /\
         (tj_not_root s' u = false -> Z = []) /\
         tj_low s' u <= tj_low s u /\
         (forall e, In e es -> In (e_tgt e) G -> tj_low s' u <= tj_low s (e_tgt e)) /\
         (forall z x, In z (discovers t) -> In x G -> arc g z x -> tj_low s' u <= tj_low s x) /\
         (forall v, In v (discovers t) -> tj_not_root s' v = false -> is_root v)).
  Proof.
    apply visit_scan_ind.
    - intros u D t D' H IH Hu Lu N L HT G P s I HuG HG Bk Ch. cbv zeta.
      change (run V (EDiscover u :: EStart u :: t) s) with (run V t (v_step V (EStart u) s)).
      set (s1 := v_step V (EStart u) s). pose proof (scan_times _ _ _ _ _ _ _ H HT) as HTu.
      pose proof (times_head _ _ _ HTu) as Tu.
      destruct (ti_white _ _ _ _ I u Lu Hu) as (_ & Nr).
      assert (forall v, In v D -> tj_low s1 v = tj_low s v) as Old.
      { intros v Hv. cbn. apply upd_other. intros ->. contradiction. }
      assert (tj_low s1 u = T u) as Lu1.
      { cbn. rewrite upd_same, (ti_now _ _ _ _ I). lia. }
      destruct (IH (or_introl eq_refl) (incl_refl _)) with (G := G) (Z1 := @nil nat) (P := P) (s := s1)
        as (Z & I' & C' & K' & R' & S' & E' & L1 & L2 & L3 & L4).
      + now constructor.
      + intros v [<-|Hv]; auto.
      + assumption.
      + destruct I. split.
        * cbn. rewrite ti_now0. lia.
        * intros v Hv Hg. cbn in Hg. destruct Hv as [<-|Hv]; [tauto|]. rewrite Old by assumption. apply ti_black0; tauto.
        * intros b [<-|Hb]; [split; [now left|]; rewrite Lu1; cbn [length] in *; lia|].
          destruct (ti_gray0 b Hb). rewrite Old by assumption. split; [now right | assumption].
        * intros v Lv Hv. cbn. rewrite upd_other; [|intros ->; apply Hv; now left]. apply ti_white0; [assumption|]. intro; apply Hv; now right.
        * exact ti_ub0.
        * cbn. now rewrite ti_stack0.
        * intros v [<-|Hv]; [now left | right; auto].
        * cbn. constructor; [|assumption]. intro; auto.
        * intros v w Hv Hw HvP HwP. cbn in HvP, HwP. destruct Hv as [<-|Hv]; [tauto|]. destruct Hw as [<-|Hw]; [tauto|].
          apply ti_lab0; tauto.
        * intros v Hv HvP. cbn in HvP. destruct Hv as [<-|Hv]; [tauto|]. apply ti_rng0; tauto.
        * exact ti_n0.
        * intros v [<-|Hv]; [exists u; split; [now left | apply reach_refl]|]. destruct (ti_pre0 v Hv) as (b & Hb & Rb). exists b. split; [now right | assumption].
        * intros v Hv HvP. cbn in HvP. destruct Hv as [<-|Hv]; [tauto|]. destruct (ti_rep0 v) as (y & A & B & C); [assumption | tauto |].
          exists y. split; [now right|]. split; [|exact C]. intros [<-|?]; contradiction.
        * intros v w Hv HvP A. cbn in HvP. destruct Hv as [<-|Hv]; [tauto|]. destruct (ti_top0 v w) as (B & C); [assumption | tauto | assumption |].
          split; [now right|]. destruct C as [?|(C1 & C2)]; [now left | right]. split; [|exact C2]. intros [<-|?]; contradiction.
      + split; [|intros _; exact Lu1]. cbn. rewrite Nr. discriminate.
      + assumption.
      + assumption.
      + easy.
      + easy.
      + now apply black_push.
      + assumption.
      + easy.
      + now left.
      + assert (forall z x, In z (discovers (EDiscover u :: EStart u :: t)) -> In x G -> arc g z x -> tj_low (run V t s1) u <= tj_low s x) as L5.
        { intros z x Hz Hx A. destruct (ti_gray _ _ _ _ I x Hx) as (Hxd & _). destruct Hz as [<-|Hz].
          - destruct A as (e & He & <-). rewrite <- (Old _ Hxd). now apply L2.
          - rewrite <- (Old _ Hxd). now apply (L3 z). }
        exists Z. split; [assumption|]. split; [assumption|]. split; [|split; [assumption | split; [exact S' | split; [assumption|]]]].
        2:{ split; [exact L5|]. intros v Hv Hr. destruct Hv as [<-|Hv]; [|now apply L4].
            exists G, D, (EDiscover u :: EStart u :: t), D'. split; [now constructor|]. split; [assumption|]. split; [assumption|]. split; [assumption|].
            split; [assumption|]. split; [|assumption]. intros z x Hz Hx A. specialize (L5 z x Hz Hx A).
            pose proof (tc_no _ _ _ C' Hr) as Lr. destruct (ti_gray _ _ _ _ I x Hx) as (Hxd & Lx).
            destruct HTu as (_ & HTD). pose proof (times_range _ _ _ HTD Hxd). cbn [tj_low] in *. lia. }
        intros v Hv. assert (v <> u) by (intros ->; contradiction).
        destruct (K' v (or_intror Hv)) as (-> & ->); [assumption|]. split; [now apply Old | reflexivity].
    - intros u D Hu _ N L HT G Z1 P s I C HuG HG R1 R2 Bk Ch Cl Co. cbv zeta.
      change (run V [EFinish u] s) with (if tj_not_root s u then s
        else {| tj_c := cs_pop (tj_c s) u; tj_low := tj_low s; tj_not_root := tj_not_root s; tj_now := tj_now s |}).
      destruct (tj_not_root s u) eqn:Nr.
      + exists (Z1 ++ [u]). rewrite <- app_assoc. cbn [app]. split; [assumption|]. split; [assumption|].
        split; [auto|]. split; [|split; [|split; [congruence | split; [apply Z.le_refl | repeat split; easy]]]].
        * intros v Hv. apply in_app_iff in Hv. destruct Hv as [Hv|[<-|[]]]; [auto | apply reach_refl].
        * intros v Hv. apply in_app_iff in Hv. destruct Hv as [Hv|[<-|[]]]; [right; apply in_app_iff; now left | now left].
      + exists []. cbn [app].
        assert (NoDup (Z1 ++ u :: P)) as Nd by exact (ti_pnd _ _ _ _ I).
        assert (~ In u Z1) as HuZ.
        { intro X. apply NoDup_remove_2 in Nd. apply Nd. apply in_app_iff. now left. }
        destruct (cs_pop_loop_ok (cs_map (tj_c s)) (cs_n (tj_c s)) Z1 u P HuZ) as (m' & Ep & Fm).
        assert (cs_pop (tj_c s) u = {| cs_map := m'; cs_stack := P; cs_n := cs_n (tj_c s) + 1; cs_ub := false |}) as ->.
        { unfold cs_pop. rewrite (ti_stack _ _ _ _ I), Ep, (ti_ub _ _ _ _ I). reflexivity. }
        assert (forall v, In v (Z1 ++ [u]) -> m' v = cs_n (tj_c s)) as Mn.
        { intros v Hv. rewrite Fm. apply existsb_eqb in Hv. now rewrite Hv. }
        assert (forall v, ~ In v (Z1 ++ [u]) -> m' v = cs_map (tj_c s) v) as Mo.
        { intros v Hv. rewrite Fm. destruct (existsb (Nat.eqb v) (Z1 ++ [u])) eqn:E; [|reflexivity]. apply existsb_eqb in E. contradiction. }
        assert (forall v, In v (Z1 ++ [u]) -> reach g v u /\ reach g u v) as Rz.
        { intros v Hv. apply in_app_iff in Hv. destruct Hv as [Hv|[<-|[]]]; [auto | split; apply reach_refl]. }
        assert (forall v, ~ In v P -> ~ In v (Z1 ++ [u]) -> ~ In v (Z1 ++ u :: P)) as Nn.
        { intros v A B. rewrite in_app_iff in *. cbn in *. tauto. }
        split; [|split; [|split; [|split; [|split; [|split; [|split; [apply Z.le_refl|]]]]]]]; try easy.
        * destruct I. split; try assumption.
          -- reflexivity.
          -- reflexivity.
          -- intros v Hv. apply ti_pin0. apply in_app_iff. right. now right.
          -- apply NoDup_remove_1 in Nd. clear - Nd. induction Z1; [assumption|]. inversion Nd; auto.
          -- cbn [tj_c cs_map]. intros v w Hv Hw HvP HwP.
             destruct (in_dec Nat.eq_dec v (Z1 ++ [u])) as [A|A], (in_dec Nat.eq_dec w (Z1 ++ [u])) as [B|B].
             ++ intros _. apply reach_trans with u; [now apply Rz | now apply Rz].
             ++ rewrite (Mn v A), (Mo w B). specialize (ti_rng0 w Hw (Nn w HwP B)). lia.
             ++ rewrite (Mo v A), (Mn w B). specialize (ti_rng0 v Hv (Nn v HvP A)). lia.
             ++ rewrite (Mo v A), (Mo w B). apply ti_lab0; auto.
          -- cbn [tj_c cs_map cs_n]. intros v Hv HvP. destruct (in_dec Nat.eq_dec v (Z1 ++ [u])) as [A|A].
             ++ rewrite (Mn v A). lia.
             ++ rewrite (Mo v A). specialize (ti_rng0 v Hv (Nn v HvP A)). lia.
          -- cbn. lia.
          -- intros v Hv. apply ti_pre0. apply in_app_iff. right. now right.
          -- cbn [tj_c cs_map tj_not_root]. intros v Hv HvP. destruct (in_dec Nat.eq_dec v (Z1 ++ [u])) as [A|A].
             ++ exists u. split; [assumption|]. split; [|split; [assumption|]].
                ** intro X. apply NoDup_remove_2 in Nd. apply Nd, in_app_iff. now right.
                ** rewrite (Mn v A). apply Mn. apply in_app_iff. right. now left.
             ++ destruct (ti_rep0 v Hv (Nn v HvP A)) as (y & Y1 & Y2 & Y3 & Y4). exists y. split; [assumption|].
                rewrite in_app_iff in Y2. cbn in Y2. split; [tauto|]. split; [assumption|]. rewrite (Mo v A), Mo; [assumption|]. rewrite in_app_iff. cbn. tauto.
          -- cbn [tj_c cs_map cs_n]. intros v w Hv HvP Ar. destruct (in_dec Nat.eq_dec v (Z1 ++ [u])) as [A|A].
             ++ assert (In w D) as Hw.
                { apply in_app_iff in A. destruct A as [A|[<-|[]]]; [now apply (Cl v)|]. destruct Ar as (e & He & <-). now destruct (Co e He). }
                split; [assumption|]. destruct (in_dec Nat.eq_dec w P) as [B|B]; [left|].
                ** destruct (ti_pre0 w) as (b & Hb & Rb); [apply in_app_iff; right; now right|].
                   apply reach_trans with u; [|now apply Rz]. apply reach_trans with b; [assumption|]. destruct Hb as [<-|Hb]; [apply reach_refl | auto].
                ** destruct (in_dec Nat.eq_dec w (Z1 ++ [u])) as [Bz|Bz]; [left; apply reach_trans with u; now apply Rz|].
                   right. split; [assumption|]. rewrite (Mn v A), (Mo w Bz). specialize (ti_rng0 w Hw (Nn w B Bz)). lia.
             ++ destruct (ti_top0 v w Hv (Nn v HvP A) Ar) as (Hw & [?|(W1 & W2)]); (split; [assumption|]); [now left | right].
                rewrite in_app_iff in W1. cbn in W1. split; [tauto|]. rewrite (Mo v A), (Mo w); [assumption|]. rewrite in_app_iff. cbn. tauto.
        * destruct C. split; [cbn; congruence | assumption].
    - intros u e es D t D' Hi H IH Hu Hes N L HT G Z1 P s I C HuG HG R1 R2 Bk Ch Cl Co. cbv zeta.
      change (run V (ENonTree e :: t) s) with (run V t (tj_relax e s)).
      assert (In e (g_out g u)) as He by (apply Hes; now left). destruct (wf _ _ He) as (E1 & E2).
      pose proof (scan_times _ _ _ _ _ _ _ H HT) as HTD.
      destruct (ti_gray _ _ _ _ I u (or_introl eq_refl)) as (_ & Lu).
      assert (T u <= Z.of_nat (g_n g)) as Tn.
      { pose proof (times_range _ _ _ HTD Hu). pose proof (NoDup_incl_length N (l' := vertices g)) as X.
        unfold vertices in X. rewrite seq_length in X. assert (length D <= g_n g)%nat; [apply X|lia].
        intros v Hv. apply in_vertices. auto. }
      assert (forall e', In e' (g_out g u) -> In e' es \/ In (e_tgt e') D) as Co'.
      { intros e' He'. destruct (Co e' He') as [[<-|?]|?]; auto. }
      assert ((tj_relax e s = s /\ (In (e_tgt e) G -> tj_low s u <= tj_low s (e_tgt e))) \/ (In (e_tgt e) G /\ tj_low s (e_tgt e) < tj_low s u)) as Cs.
      { destruct (in_dec Nat.eq_dec (e_tgt e) (u :: G)) as [[Hg|Hg]|Hg].
        - left. split; [|rewrite <- Hg; intros _; lia]. unfold tj_relax. rewrite E1, <- Hg. destruct (Z.ltb_spec (tj_low s u) (tj_low s u)); [lia | reflexivity].
        - destruct (Z_lt_le_dec (tj_low s (e_tgt e)) (tj_low s u)) as [Hl|Hl]; [right; now split|].
          left. split; [|auto]. unfold tj_relax. rewrite E1. destruct (Z.ltb_spec (tj_low s (e_tgt e)) (tj_low s u)); [lia | reflexivity].
        - left. split; [|intro X; destruct Hg; now right]. apply relax_black; [now apply (ti_black _ _ _ _ I)|]. rewrite E1. lia. }
      destruct Cs as [(-> & Hl)|(Hg & Hl)].
      + destruct (IH Hu (fun x Hx => Hes x (or_intror Hx)) N L HT G Z1 P s) as (Z & I' & C' & K' & R' & S' & E' & L1 & L2 & L3 & L4); auto.
        exists Z. repeat (split; [assumption|]). split; [|split; assumption].
        intros e' [<-|He'] Hg; [specialize (Hl Hg); lia | now apply L2].
      + set (s1 := tj_relax e s).
        assert (tj_low s1 = upd (tj_low s) u (tj_low s (e_tgt e)) /\ tj_not_root s1 = upd (tj_not_root s) u true /\
          tj_c s1 = tj_c s /\ tj_now s1 = tj_now s) as (Q1 & Q2 & Q3 & Q4).
        { unfold s1, tj_relax. rewrite E1. destruct (Z.ltb_spec (tj_low s (e_tgt e)) (tj_low s u)); [|lia]. cbn. auto. }
        assert (forall v, v <> u -> tj_low s1 v = tj_low s v /\ tj_not_root s1 v = tj_not_root s v) as Old.
        { intros v Hv. rewrite Q1, Q2, !upd_other by assumption. auto. }
        destruct (ti_gray _ _ _ _ I (e_tgt e) (or_intror Hg)) as (_ & Lt).
        assert (e_tgt e <> u) as Htu by (intros X; apply HuG; now rewrite <- X).
        destruct (IH Hu (fun x Hx => Hes x (or_intror Hx)) N L HT G Z1 P s1) as (Z & I' & C' & K' & R' & S' & E' & L1 & L2 & L3 & L4); auto.
        * destruct I. split; rewrite ?Q3, ?Q4; try assumption.
          -- intros v Hv Hg'. destruct (Old v) as (-> & _); [intros ->; apply Hg'; now left|]. auto.
          -- intros b Hb. destruct (ti_gray0 b Hb) as (Hbd & Hb2). split; [assumption|].
             destruct (Nat.eq_dec b u) as [->|n]; [rewrite Q1, upd_same; lia | destruct (Old b n) as (-> & _); assumption].
          -- intros v Lv Hv. destruct (Old v) as (-> & ->); [intros ->; contradiction|]. auto.
          -- intros v Hv HvP. destruct (ti_rep0 v Hv HvP) as (y & Y1 & Y2 & Y3 & Y4). exists y. repeat (split; [assumption|]).
             destruct (Old y) as (_ & ->); [intros ->; apply Y2, in_app_iff; right; now left | now split].
        * split; [|rewrite Q2, upd_same; discriminate].
          intros _. exists (e_tgt e). split; [assumption|]. split; [apply reach_arc; now exists e|].
          destruct (Old _ Htu) as (-> & _). rewrite Q1, upd_same. lia.
        * assert (tj_low s1 u = tj_low s (e_tgt e)) as Lu1 by (rewrite Q1; apply upd_same).
          assert (forall x, In x G -> tj_low s1 x = tj_low s x) as LG by (intros x Hx; apply Old; intros ->; contradiction).
          exists Z. split; [assumption|]. split; [assumption|]. split; [|split; [assumption | split; [exact S' | split; [assumption|]]]].
          2:{ split; [lia|]. split; [|split; [|assumption]].
              - intros e' [<-|He'] Hx; [lia|]. rewrite <- (LG _ Hx). now apply L2.
              - intros z x Hz Hx A. rewrite <- (LG _ Hx). now apply (L3 z). }
          intros v Hv Hn. destruct (K' v Hv Hn) as (-> & ->). auto.
    - intros u e es D t1 D1 t2 D' Hn H1 IH1 H2 IH2 Hu Hes N L HT G Z1 P s I C HuG HG R1 R2 Bk Ch Cl Co. cbv zeta.
      assert (In e (g_out g u)) as He by (apply Hes; now left). destruct (wf _ _ He) as (E1 & E2).
      set (c := e_tgt e) in *.
      assert (run V (ETreeStart e :: t1 ++ ETreeFinish e :: t2) s = run V t2 (v_step V (ETreeFinish e) (run V t1 s))) as ->.
      { change (run V (t1 ++ ETreeFinish e :: t2) s = run V t2 (v_step V (ETreeFinish e) (run V t1 s))). now rewrite run_app. }
      pose proof (scan_times _ _ _ _ _ _ _ H2 HT) as HT1.
      assert (arc g u c) as Ha by (exists e; auto).
      assert (~ In c (u :: G)) as HcG by (intro X; apply Hn; now apply (ti_gray _ _ _ _ I)).
      assert (c <> u) as Hcu by (intros X; apply HcG; left; auto).
      destruct (IH1 Hn E2 N L HT1 (u :: G) (Z1 ++ u :: P) s I HcG) as (Zc & I1 & C1 & K1 & Rc & Sc & Ec & M1 & M2); [|assumption | now split |].
      { intros b [<-|Hb]; [now apply reach_arc|]. eapply reach_trans; [now apply HG | now apply reach_arc]. }
      set (s1 := run V t1 s) in *. destruct (K1 u Hu) as (Lu1 & Nu1).
      pose proof (visit_times _ _ _ _ _ _ H1 HT1) as HTc. pose proof (times_head _ _ _ HTc) as Tc.
      assert (T u < T c) as Tuc.
      { destruct HTc as (_ & HTD). pose proof (times_range _ _ _ HTD Hu). lia. }
      destruct (ti_gray _ _ _ _ I u (or_introl eq_refl)) as (_ & Lu).
      (* the edge back to u *)
      set (s2 := v_step V (ETreeFinish e) s1).
      assert (tj_low s2 c = int_max /\
        (forall v, v <> u -> v <> c -> tj_low s2 v = tj_low s1 v) /\ (forall v, v <> u -> tj_not_root s2 v = tj_not_root s1 v) /\
        tj_c s2 = tj_c s1 /\ tj_now s2 = tj_now s1 /\
        ((tj_low s2 u = tj_low s u /\ tj_not_root s2 u = tj_not_root s u) \/
         (tj_low s1 c < tj_low s u /\ tj_low s2 u = tj_low s1 c /\ tj_not_root s2 u = true))) as (A1 & A2 & A3 & A4 & A5 & A6).
      { unfold s2. cbn [v_step tarjan_visitor to_visitor c_step tarjan_finder]. unfold tj_relax. rewrite E1. fold c.
        destruct (Z.ltb_spec (tj_low s1 c) (tj_low s1 u)) as [Hl|Hl]; cbn.
        - rewrite upd_same. repeat split; auto.
          + intros v Hv Hvc. now rewrite !upd_other.
          + intros v Hv. now rewrite upd_other.
          + right. rewrite upd_other by auto. rewrite !upd_same. rewrite Lu1 in Hl. auto.
        - rewrite upd_same. repeat split; auto.
          + intros v Hv Hvc. now rewrite upd_other.
          + left. rewrite upd_other by auto. auto. }
      assert (forall v, In v D -> v <> u -> tj_low s2 v = tj_low s v /\ tj_not_root s2 v = tj_not_root s v) as Old.
      { intros v Hv Hvu. rewrite A2, A3 by (auto; intros ->; contradiction). now apply K1. }
      assert (forall v, In v Zc -> reach g v u) as RZc.
      { intros v Hv. destruct (tj_not_root s1 c) eqn:Nc; [|rewrite (Ec eq_refl) in Hv; easy].
        destruct (tc_yes _ _ _ C1 Nc) as (b & Hb & Rb & _). apply reach_trans with c; [auto|]. apply reach_trans with b; [assumption|].
        destruct Hb as [<-|Hb]; [apply reach_refl | auto]. }
      assert (forall b, In b G -> In b D /\ b <> u) as Gd.
      { intros b Hb. split; [now apply (ti_gray _ _ _ _ I); right | intros ->; contradiction]. }
      destruct (IH2 (visit_incl _ _ _ _ _ H1 _ Hu) (fun x Hx => Hes x (or_intror Hx))
        (proj1 (visit_scan_nodup g) _ _ _ _ H1 Hn N)) with (G := G) (Z1 := Zc ++ Z1) (P := P) (s := s2)
        as (Z & I' & C' & K' & R' & S' & E' & L1 & L2 & L3 & L4); auto.
      + intros v Hv. apply (visit_in _ _ _ _ _ _ H1) in Hv. destruct Hv as [Hv|Hv]; [|auto].
        now apply (visit_lt g wf c D t1 D1).
      + rewrite <- app_assoc. destruct I1. split; rewrite ?A4, ?A5; try assumption.
        * intros v Hv Hg. destruct (Nat.eq_dec v c) as [->|Hvc]; [assumption|].
          rewrite A2; [|intros ->; apply Hg; now left | assumption]. apply ti_black0; [assumption|].
          intros [?|?]; [congruence | contradiction].
        * intros b Hb. destruct (ti_gray0 b (or_intror Hb)) as (Hbd & Hb2). split; [assumption|].
          destruct (Nat.eq_dec b u) as [->|n].
          -- destruct (ti_gray0 c (or_introl eq_refl)) as (_ & Lc). destruct A6 as [(-> & _)|(Hl & -> & _)]; [assumption | lia].
          -- rewrite A2; [assumption | assumption | intros ->; contradiction].
        * (* not discovered *) intros v Lv Hv. assert (v <> c) by (intros ->; apply Hv; apply (visit_in _ _ _ _ _ _ H1); left; now apply (visit_discovers_root _ _ _ _ _ H1)).
          assert (v <> u) by (intros ->; apply Hv; now apply (visit_incl _ _ _ _ _ H1)).
          rewrite A2, A3 by assumption. auto.
        * intros v Hv. rewrite in_app_iff in Hv. destruct Hv as [Hv|Hv]; [exists u; split; [now left | auto]|]. now apply (ti_pre _ _ _ _ I).
        * intros v Hv HvP. destruct (ti_rep0 v Hv HvP) as (y & Y1 & Y2 & Y3 & Y4). exists y. repeat (split; [assumption|]).
          rewrite A3; [now split|]. intros ->. apply Y2, in_app_iff. right. apply in_app_iff. right. now left.
      + split.
        * intro Nr. destruct A6 as [(Al & An)|(Hl & Al & An)].
          -- rewrite An in Nr. destruct (tc_yes _ _ _ C Nr) as (b & Hb & Rb & Lb). exists b.
             split; [assumption|]. split; [assumption|]. rewrite Al. destruct (Gd b Hb). destruct (Old b) as (-> & _); assumption.
          -- assert (tj_not_root s1 c = true) as Nc.
             { destruct (tj_not_root s1 c) eqn:Nc; [reflexivity|]. pose proof (tc_no _ _ _ C1 Nc). lia. }
             destruct (tc_yes _ _ _ C1 Nc) as (b & Hb & Rb & Lb). destruct Hb as [<-|Hb]; [rewrite Lu1 in Lb; lia|].
             exists b. split; [assumption|]. split; [apply reach_trans with c; [now apply reach_arc | assumption]|].
             rewrite Al. destruct (Gd b Hb). rewrite A2; [assumption | assumption | intros ->; contradiction].
        * intro Nr. destruct A6 as [(Al & An)|(Hl & Al & An)]; [|congruence]. rewrite Al. apply (tc_no _ _ _ C). congruence.
      + intros v Hv. apply in_app_iff in Hv. destruct Hv; auto.
      + intros v Hv. apply in_app_iff in Hv. destruct Hv as [Hv|Hv]; [|auto]. apply Sc in Hv.
        apply reach_trans with c; [now apply reach_arc|]. apply reach_avoid_reach with D. now apply (white_path g c D t1 D1).
      + apply black_pop with c; [now apply (proj1 (visit_scan_black g) _ _ _ _ H1) | assumption |].
        intros y. apply (proj1 (visit_scan_closed g) _ _ _ _ H1). now apply (visit_discovers_root _ _ _ _ _ H1).
      + intros v w Hv A. apply in_app_iff in Hv. destruct Hv as [Hv|Hv]; [|apply (visit_incl _ _ _ _ _ H1); now apply (Cl v)].
        apply (proj1 (visit_scan_closed g) _ _ _ _ H1 v w); auto.
      + intros e' He'. destruct (Co e' He') as [[<-|?]|?]; [right | now left | right].
        * apply (visit_in _ _ _ _ _ _ H1). left. now apply (visit_discovers_root _ _ _ _ _ H1).
        * now apply (visit_incl _ _ _ _ _ H1).
      + assert (tj_low s2 u <= tj_low s u) as M3 by (destruct A6 as [(-> & _)|(Hl & -> & _)]; lia).
        assert (tj_low s2 u <= tj_low s1 c) as M4.
        { unfold s2. cbn [v_step tarjan_visitor to_visitor c_step tarjan_finder tj_set tj_low]. unfold tj_relax. rewrite E1. fold c.
          destruct (Z.ltb_spec (tj_low s1 c) (tj_low s1 u)); cbn; rewrite ?(upd_other _ c) by auto; rewrite ?upd_same; lia. }
        assert (forall x, In x G -> tj_low s2 x = tj_low s x) as LG by (intros x Hx; now apply Old; apply Gd).
        assert (discovers (ETreeStart e :: t1 ++ ETreeFinish e :: t2) = discovers t1 ++ discovers t2) as Ed by exact (discovers_app t1 (ETreeFinish e :: t2)).
        exists Z. split; [assumption|]. split; [assumption|]. split; [|split; [assumption | split; [|split; [assumption|]]]].
        3:{ split; [lia|]. rewrite Ed. split; [|split].
            - intros e' [<-|He'] Hx; [|rewrite <- (LG _ Hx); now apply L2]. destruct Hn. now apply Gd.
            - intros z x Hz Hx A. apply in_app_iff in Hz. destruct Hz as [Hz|Hz]; [|rewrite <- (LG _ Hx); now apply (L3 z)].
              specialize (M1 z x Hz (or_intror Hx) A). lia.
            - intros v Hv Hr. apply in_app_iff in Hv. destruct Hv as [Hv|Hv]; [|now apply L4]. apply M2; [assumption|].
              assert (v <> u) as Hvu by (intros ->; now apply (proj2 (proj1 (visit_scan_new g) _ _ _ _ H1 Hn) u)).
              rewrite <- (A3 v Hvu). destruct (K' v) as (_ & <-); auto. apply (visit_in _ _ _ _ _ _ H1). now left. }
        * intros v Hv Hvu. destruct (K' v) as (-> & ->); [now apply (visit_incl _ _ _ _ _ H1) | assumption |]. auto.
        * change (discovers (ETreeStart e :: t1 ++ ETreeFinish e :: t2)) with (discovers (t1 ++ ETreeFinish e :: t2)).
          rewrite discovers_app. change (discovers (ETreeFinish e :: t2)) with (discovers t2).
          intros v Hv. apply S' in Hv. cbn in Hv |- *. rewrite !in_app_iff in *. destruct Hv as [?|[[?|?]|?]]; auto.
  Qed.

  Lemma forest_tarjan rs D t D' : forest g rs D t D' -> (forall r, In r rs -> (r < g_n g)%nat) -> NoDup D ->
    (forall v, In v D -> (v < g_n g)%nat) -> times T D' -> forall s, tinv [] D [] s -> black g [] D -> (forall v, In v D -> tj_not_root s v = false -> is_root v) ->
    tinv [] D' [] (run V t s) /\ forall v, In v D' -> tj_not_root (run V t s) v = false -> is_root v.
  Proof.
    induction 1 as [D|r rs D t D' Hi F IH|r rs D t1 D1 t2 D' Hn H1 H2 IH]; intros Hr N L HT s I Bk Q; [now split | apply IH; auto; intros; apply Hr; now right |].
    assert (run V (ESearchStart r :: t1 ++ ESearchFinish (Some r) :: t2) s = run V t2 (tj_set (run V t1 s) r int_max)) as ->.
    { change (run V (t1 ++ ESearchFinish (Some r) :: t2) s = run V t2 (tj_set (run V t1 s) r int_max)). now rewrite run_app. }
    assert (times T D1) as HT1 by (destruct (forest_suffix _ _ _ _ _ H2) as (X & ->); now apply times_app in HT).
    destruct (proj1 visit_scan_tarjan r D t1 D1 H1 Hn (Hr r (or_introl eq_refl)) N L HT1 [] [] s I) as (Z & I1 & C1 & K1 & _ & _ & E1 & _ & M2); [easy | easy | assumption | easy |].
    assert (tj_not_root (run V t1 s) r = false) as Nr.
    { destruct (tj_not_root (run V t1 s) r) eqn:Nr; [|reflexivity]. destruct (tc_yes _ _ _ C1 Nr) as (b & [] & _). }
    rewrite (E1 Nr) in I1. cbn [app] in I1. apply IH.
    - intros; apply Hr; now right.
    - now apply (proj1 (visit_scan_nodup g) _ _ _ _ H1).
    - intros v Hv. apply (visit_in _ _ _ _ _ _ H1) in Hv. destruct Hv as [Hv|Hv]; [|auto].
      apply (visit_lt g wf r D t1 D1); auto. apply Hr. now left.
    - assumption.
    - destruct I1. split; try assumption.
      + intros v Hv _. cbn. unfold upd. destruct (Nat.eqb_spec v r) as [->|n]; [reflexivity|].
        apply ti_black0; [assumption|]. intros [?|[]]; congruence.
      + easy.
      + intros v Lv Hv. cbn. rewrite upd_other; [auto|]. intros ->. apply Hv. apply (visit_in _ _ _ _ _ _ H1). left. now apply (visit_discovers_root _ _ _ _ _ H1).
      + easy.
    - apply black_root with r; [now apply (proj1 (visit_scan_black g) _ _ _ _ H1)|].
      intros y. apply (proj1 (visit_scan_closed g) _ _ _ _ H1). now apply (visit_discovers_root _ _ _ _ _ H1).
    - intros v Hv Hv2. cbn [tj_set tj_not_root] in Hv2. apply (visit_in _ _ _ _ _ _ H1) in Hv. destruct Hv as [Hv|Hv]; [now apply M2|].
      apply Q; [assumption|]. destruct (K1 v Hv) as (_ & <-). assumption.
  Qed.

  (** Without a theta each component has one root: its vertex discovered first. *)
  Lemma is_root_first Df : no_theta g -> times T Df -> (forall v, (v < g_n g)%nat -> In v Df) ->
    forall v w, is_root v -> In w Df -> reach g v w -> reach g w v -> T v <= T w.
  Proof.
    intros Nt HT Hf v w (G & D & t & D' & H & Hv & L & B & Ch & No & HTD) Hw R1 R2. apply Z.nlt_ge. intro Lt.
    pose proof (visit_times _ _ _ _ _ _ H HTD) as HTv. pose proof (times_head _ _ _ HTv) as Ev. destruct HTv as (_ & HT0).
    pose proof (times_range _ _ _ HT Hw) as Rw. destruct (times_onto T D (T w) HT0) as (y & Hy & Ey); [lia|].
    assert (y = w) as -> by (apply (times_inj T Df); auto).
    destruct (theta_found g v D t D' G w H Hv B Ch No Hy R1 R2) as (a & x & z & p & q & Th & Na). now apply Na, (Nt a x z p q).
  Qed.
End Tarjan.

Theorem tarjan_refines g cm : wf_graph g -> Z.of_nat (g_n g) < int_max ->
  exists k s, (forall f, (k <= f)%nat -> find_strong_components f g cm = Ok s) /\
    cs_ub (tj_c s) = false /\
    (forall v, (v < g_n g)%nat -> 0 <= cs_map (tj_c s) v < cs_n (tj_c s)) /\
    (forall v w, (v < g_n g)%nat -> (w < g_n g)%nat -> cs_map (tj_c s) v = cs_map (tj_c s) w -> reach g v w /\ reach g w v) /\
    (forall v w, (v < g_n g)%nat -> arc g v w -> reach g w v \/ cs_map (tj_c s) w <= cs_map (tj_c s) v) /\
    (no_theta g -> forall v w, (v < g_n g)%nat -> (w < g_n g)%nat -> reach g v w -> reach g w v -> cs_map (tj_c s) v = cs_map (tj_c s) w).
Proof.
  intros wf small.
  assert (forall us s, fold_left (fun s u => v_step tarjan_visitor (EInit u) s) us s =
    {| tj_c := tj_c s; tj_low := fold_left (fun m u => upd m u 0) us (tj_low s); tj_not_root := tj_not_root s; tj_now := tj_now s |}) as Ei.
  { induction us as [|u us IH]; intros [? ? ? ?]; [reflexivity|]. cbn [fold_left]. rewrite IH. reflexivity. }
  assert (forall v, (v < g_n g)%nat -> fold_left (fun m u => upd m u 0) (vertices g) (fun _ => 0) v = 0) as Z0.
  { intros v Hv. apply fold_upd. now apply in_vertices. }
  destruct (dfs_all_run tarjan_visitor g (tarjan_ok g) wf (tarjan_disciplined g) (tarjan_init cm)) as (t & D' & F & R & k & E).
  { unfold init_all. rewrite Ei. split; [cbn; lia|]. split; [easy|]. cbn. intros; auto. }
  exists k. eexists. split; [exact E|].
  assert (NoDup D') as ND by (apply (forest_nodup _ _ _ _ _ F); constructor).
  destruct (times_exists D' ND) as (T & HT).
  assert (tinv g T [] D' [] (run tarjan_visitor t (init_all tarjan_visitor g (tarjan_init cm))) /\
    forall v, In v D' -> tj_not_root (run tarjan_visitor t (init_all tarjan_visitor g (tarjan_init cm))) v = false -> is_root g T v) as (I & Q).
  { apply (forest_tarjan g wf small T (vertices g) [] t D' F); try easy.
    - intros r. apply in_vertices.
    - constructor.
    - unfold init_all. rewrite Ei. split; cbn; try easy; try (intros; auto); try lia. constructor.
    - split; try easy. constructor. }
  assert (forall v, (v < g_n g)%nat -> In v D') as Dv by (intros v Hv; apply (forest_roots _ _ _ _ _ _ F); now apply in_vertices).
  destruct I. split; [assumption|]. split; [auto|]. split; [intros v w Hv Hw Em; split; apply ti_lab0; auto|]. split.
  - intros v w Hv A. destruct (ti_top0 v w (Dv v Hv) (fun X => X) A) as (_ & [?|(_ & ?)]); auto.
  - intros Nt v w Hv Hw R1 R2.
    destruct (ti_rep0 v (Dv v Hv) (fun X => X)) as (y & Y1 & _ & Y3 & Y4). destruct (ti_rep0 w (Dv w Hw) (fun X => X)) as (y' & Y1' & _ & Y3' & Y4').
    assert (reach g v y /\ reach g y v) as (? & ?) by (split; apply ti_lab0; auto). assert (reach g w y' /\ reach g y' w) as (? & ?) by (split; apply ti_lab0; auto).
    assert (reach g y y') by eauto using reach_trans. assert (reach g y' y) by eauto using reach_trans.
    assert (y = y') as <-; [|congruence]. apply (times_inj T D'); auto. apply Z.le_antisymm; apply (is_root_first g T D'); auto.
Qed.
