(** find_bridges reports exactly the bridges, and its labels describe the
    2-edge-connected components. *)
From Coq Require Import ZArith List Bool PeanoNat Lia Permutation.
From Verif Require Import Outcome GraphModel DfsProofs DfsResults TarjanProofs.
Import ListNotations.
Local Open Scope Z_scope.

(** ** Specification: undirected multigraphs *)
Definition rev_edge (e : edge) : edge := {| e_id := e_id e; e_src := e_tgt e; e_tgt := e_src e |}.
(** Each edge is listed at both end-points (a loop once) and is determined by its id. *)
Record multigraph (g : graph) : Prop := {
  mg_wf : wf_graph g;
  mg_rev u e : In e (g_out g u) -> In (rev_edge e) (g_out g (e_tgt e));
  mg_ids u u' e e' : In e (g_out g u) -> In e' (g_out g u') -> e_id e = e_id e' -> e' = e \/ e' = rev_edge e;
  mg_once u : NoDup (map e_id (g_out g u)) }.
(** No two edges join the same pair of vertices. *)
Definition no_parallel (g : graph) : Prop :=
  forall u e e', In e (g_out g u) -> In e' (g_out g u) -> e_tgt e = e_tgt e' -> e = e'.
(** The graph with one edge removed. *)
Definition without (g : graph) (i : nat) : graph :=
  {| g_n := g_n g; g_out := fun u => filter (fun e => negb (e_id e =? i)%nat) (g_out g u) |}.
(** The end-points stay connected when the edge is removed / do not. *)
Definition joined (g : graph) (e : edge) : Prop := reach (without g (e_id e)) (e_src e) (e_tgt e).
Definition is_bridge (g : graph) (e : edge) : Prop := ~ joined g e.
(** Connected even when any one edge is removed. *)
Definition two_edge_connected (g : graph) (v w : nat) : Prop := forall i, reach (without g i) v w.

(** ** Paths *)
Lemma without_in g i u e : In e (g_out (without g i) u) <-> In e (g_out g u) /\ e_id e <> i.
Proof. cbn. rewrite filter_In, negb_true_iff, Nat.eqb_neq. tauto. Qed.
Lemma without_sym g i : multigraph g -> symmetric (without g i).
Proof.
  intros M u v (e & He & <-). apply without_in in He. destruct He as (He & Hi).
  exists (rev_edge e). rewrite without_in. destruct (mg_wf _ M _ _ He) as (E1 & _).
  split; [split; [now apply (mg_rev _ M) in He | assumption] | assumption].
Qed.
Lemma multigraph_sym g : multigraph g -> symmetric g.
Proof.
  intros M u v (e & He & <-). exists (rev_edge e). destruct (mg_wf _ M _ _ He) as (E1 & _).
  split; [now apply (mg_rev _ M) in He | assumption].
Qed.
Lemma joined_same g u u' e e' : multigraph g -> In e (g_out g u) -> In e' (g_out g u') -> e_id e = e_id e' -> joined g e -> joined g e'.
Proof.
  intros M He He' Ei J. destruct (mg_ids _ M _ _ _ _ He He' Ei) as [->| ->]; [assumption|].
  unfold joined in *. cbn. apply reach_sym; [now apply without_sym | assumption].
Qed.
Lemma reach_avoid_sym g A u v : symmetric g -> reach_avoid g A u v -> reach_avoid g A v u.
Proof.
  intros S H. induction H as [H|v w H IH Ha Hw]; [now constructor|].
  apply reach_avoid_trans with v; [|assumption]. eapply ra_step; [now apply ra_refl | now apply S |].
  now apply reach_avoid_end in H.
Qed.
(** A path avoiding an end-point of an edge does not use the edge. *)
Lemma avoid_without g A x y u e : multigraph g -> In e (g_out g u) -> In u A \/ In (e_tgt e) A ->
  reach_avoid g A x y -> reach (without g (e_id e)) x y.
Proof.
  intros M He HA. induction 1 as [H|v w H IH (e' & He' & <-) Hw]; [constructor|].
  eapply reach_step; [exact IH|]. exists e'. split; [|reflexivity]. apply without_in. split; [assumption|]. intro Ei.
  destruct (mg_wf _ M _ _ He) as (E1 & _). destruct (mg_wf _ M _ _ He') as (E1' & _).
  apply reach_avoid_end in H.
  destruct (mg_ids _ M _ _ _ _ He He' (eq_sym Ei)) as [->| ->]; cbn in *; rewrite E1 in *; subst v; tauto.
Qed.
Lemma step_without g i u e : In e (g_out g u) -> e_id e <> i -> reach (without g i) u (e_tgt e).
Proof. intros He Hi. apply reach_arc. exists e. split; [now apply without_in | reflexivity]. Qed.

(** Each vertex of the list has an edge to its predecessor in the list. *)
Fixpoint chain (g : graph) (G : list nat) : Prop :=
  match G with x :: ((y :: _) as G') => arc g y x /\ chain g G' | _ => True end.
Lemma chain_reach g A p G b : chain g (p :: G) -> (forall x, In x (p :: G) -> ~ In x A) -> In b (p :: G) -> reach_avoid g A b p.
Proof.
  revert p. induction G as [|q G IH]; intros p C Hd Hb.
  - destruct Hb as [->|[]]. apply ra_refl. apply Hd. now left.
  - destruct C as (Ha & C). destruct Hb as [->|Hb]; [apply ra_refl, Hd; now left|].
    eapply ra_step; [apply (IH q C); [intros x Hx; apply Hd; now right | assumption] | assumption | apply Hd; now left].
Qed.

(** Connected by edges that are not bridges. *)
Inductive nb_reach (g : graph) (u : nat) : nat -> Prop :=
| nb_refl : nb_reach g u u
| nb_step v e : nb_reach g u v -> In e (g_out g v) -> joined g e -> nb_reach g u (e_tgt e).
Lemma nb_trans g u v w : nb_reach g u v -> nb_reach g v w -> nb_reach g u w.
Proof. intros A B. induction B; [assumption|]. eapply nb_step; eauto. Qed.
Lemma nb_sym g u v : multigraph g -> nb_reach g u v -> nb_reach g v u.
Proof.
  intros M. induction 1 as [|v e H IH He J]; [constructor|]. eapply nb_trans; [|exact IH].
  destruct (mg_wf _ M _ _ He) as (E1 & _). replace v with (e_tgt (rev_edge e)) by exact E1. apply (nb_step g (e_tgt e) (e_tgt e) (rev_edge e)); [constructor | now apply (mg_rev _ M) in He |].
  eapply joined_same; [assumption | exact He | eapply (mg_rev _ M); exact He | reflexivity | assumption].
Qed.
Lemma nb_without g i u v : nb_reach g u v -> (forall x e, In e (g_out g x) -> e_id e = i -> joined g e -> False) -> wf_graph g -> reach (without g i) u v.
Proof.
  intros H Hi wf. induction H as [|v e H IH He J]; [constructor|]. eapply reach_trans; [exact IH|]. apply (step_without g i v e He). intro. eauto.
Qed.
Lemma nb_two g u v : wf_graph g -> nb_reach g u v -> two_edge_connected g u v.
Proof.
  intros wf H i. induction H as [|v e H IH He J]; [constructor|]. eapply reach_trans; [exact IH|].
  destruct (Nat.eq_dec (e_id e) i) as [<-|n]; [|now apply step_without].
  destruct (wf _ _ He) as (E1 & _). unfold joined in J. now rewrite E1 in J.
Qed.

(** ** The finder *)
Section Bridge.
  Variable g : graph.
  Hypothesis M : multigraph g.
  Variable parallel : bool.
  Hypothesis par_ok : parallel = false -> no_parallel g.
  Variable T : nat -> Z.
  Local Notation V := (bridge_visitor parallel).
  Local Notation label s := (cs_map (br_c s)).
  Local Notation out := (g_out g).

  Definition reported (s : bridge) (e : edge) : Prop := In (e_id e) (map e_id (br_out s)).

  Record binv (G D P : list nat) (s : bridge) : Prop := {
    bi_now : br_now s = Z.of_nat (length D);
    bi_gray b : In b G -> In b D /\ 1 <= br_low s b <= T b;
    bi_white v : (v < g_n g)%nat -> ~ In v D -> br_not_root s v = false;
    bi_closed b v : In b D -> ~ In b G -> arc g b v -> In v D;
    bi_ub : cs_ub (br_c s) = false;
    bi_stack : cs_stack (br_c s) = P;
    bi_pin v : In v P -> In v D;
    bi_pnd : NoDup P;
    bi_labA v e : In v D -> ~ In v P -> In e (out v) -> joined g e ->
      In (e_tgt e) D /\ ~ In (e_tgt e) P /\ label s (e_tgt e) = label s v;
    bi_labB v w : In v D -> In w D -> ~ In v P -> ~ In w P -> label s v = label s w -> nb_reach g v w;
    bi_rng v : In v D -> ~ In v P -> 0 <= label s v < cs_n (br_c s);
    bi_n : 0 <= cs_n (br_c s);
    bi_out e : In e (br_out s) -> In e (out (e_src e)) /\ is_bridge g e /\ In (e_tgt e) D /\ ~ In (e_tgt e) G;
    bi_nd : NoDup (map e_id (br_out s)) }.

  (** The edge leading to [u] when [G] are the vertices below it on the stack. *)
  Definition entered (par : option edge) (u : nat) (G : list nat) : Prop :=
    match par with
    | None => G = []
    | Some e0 => (exists G', G = e_src e0 :: G') /\ In e0 (out (e_src e0)) /\ e_tgt e0 = u
    end.
  Definition other (par : option edge) (e : edge) : Prop :=
    match par with None => True | Some e0 => e_id e <> e_id e0 end.

  Record bcur (u : nat) (G D0 X : list nat) (Q : list edge) (par : option edge) (s : bridge) : Prop := {
    bc_reach v : In v X -> reach_avoid g D0 u v;
    bc_nr : br_not_root s u = (br_low s u <? T u);
    bc_min v : In v X -> br_low s u <= br_low s v;
    bc_sound : br_low s u < T u -> exists a e, In a X /\ In e (out a) /\ In (e_tgt e) G /\ other par e /\ br_low s (e_tgt e) <= br_low s u;
    bc_exit a e : In a X -> a <> u -> In e (out a) -> In (e_tgt e) G -> br_low s u <= br_low s (e_tgt e);
    bc_closed a e : In a X -> a <> u -> In e (out a) -> In (e_tgt e) X \/ In (e_tgt e) G;
    bc_known a e : In a X -> a <> u -> In e (out a) -> reported s e \/ joined g e;
    bc_done e : In e Q -> In (e_tgt e) X \/ In (e_tgt e) G;
    bc_flag : match par with
      | None => br_top s = []
      | Some e0 => exists x r sk, br_top s = (e_src e0, x) :: r /\
          (parallel = true -> x = match sk with None => true | Some _ => false end) /\
          (forall e, sk = Some e -> In e Q /\ e_tgt e = e_src e0) /\
          (parallel = true -> sk = None -> forall e, In e Q -> e_tgt e <> e_src e0) /\
          (forall e, In e Q -> In (e_tgt e) G -> br_low s u <= br_low s (e_tgt e) \/
             e_tgt e = e_src e0 /\ (parallel = false \/ sk = Some e))
      end }.
  Record bpost (u : nat) (G D0 X : list nat) (par : option edge) (s : bridge) : Prop := {
    bp_reach v : In v X -> reach_avoid g D0 u v;
    bp_nr : br_not_root s u = (br_low s u <? T u);
    bp_min v : In v X -> br_low s u <= br_low s v;
    bp_sound : br_low s u < T u -> exists a e, In a X /\ In e (out a) /\ In (e_tgt e) G /\ other par e /\ br_low s (e_tgt e) <= br_low s u;
    bp_exit a e : In a X -> In e (out a) -> In (e_tgt e) G -> other par e -> br_low s u <= br_low s (e_tgt e);
    bp_closed a e : In a X -> In e (out a) -> In (e_tgt e) X \/ In (e_tgt e) G;
    bp_known a e : In a X -> In e (out a) -> reported s e \/ joined g e \/ exists e0, par = Some e0 /\ e_id e = e_id e0 }.

  (** *** Exits from the subtree of [u] *)
  Section Exit.
    Variables (u : nat) (G D0 X : list nat).
    Hypothesis HuG : ~ In u G.
    Hypothesis GD : incl G D0.
    Hypothesis HC : chain g G.
    Hypothesis HR : forall v, In v X -> reach_avoid g D0 u v.
    Variable e0 : edge.
    Hypothesis En : entered (Some e0) u G.
    Let p := e_src e0.
    Lemma exit_joins a e : In a X -> In e (out a) -> In (e_tgt e) G -> e_id e <> e_id e0 -> joined g e0 /\ joined g e.
    Proof using M HuG GD HC HR En.
      intros Ha He Hb Hi. destruct En as ((G' & EG) & Hp & Eu).
      assert (~ In a D0) as HaD by (apply reach_avoid_end with g u; auto).
      assert (~ In u D0) as HuD by (apply reach_avoid_start with g a; auto).
      assert (In p G) as HpG by (rewrite EG; now left).
      assert (forall A, (forall x, In x G -> ~ In x A) -> reach_avoid g A (e_tgt e) p) as Hbp.
      { intros A HA. rewrite EG in *. apply chain_reach with G'; assumption. }
      pose proof (without_sym g (e_id e0) M) as S0. pose proof (without_sym g (e_id e) M) as S1.
      split.
      - unfold joined. fold p. rewrite Eu.
        apply reach_trans with (e_tgt e).
        + apply reach_sym; [assumption|]. apply (avoid_without g [u] _ _ p e0 M Hp); [right; rewrite Eu; now left|].
          apply Hbp. intros x Hx [<-|[]]. contradiction.
        + apply reach_trans with a.
          * apply reach_sym; [assumption|]. now apply step_without.
          * apply reach_sym; [assumption|]. apply (avoid_without g D0 _ _ p e0 M Hp); [left; now apply GD | auto].
      - unfold joined. destruct (mg_wf _ M _ _ He) as (E1 & _). rewrite E1.
        apply reach_trans with u.
        + apply reach_sym; [assumption|]. apply (avoid_without g D0 _ _ a e M He); [right; now apply GD | auto].
        + apply reach_trans with p.
          * rewrite <- Eu. apply (step_without g (e_id e) (e_tgt e0) (rev_edge e0)); [now apply (mg_rev _ M) in Hp | cbn; congruence].
          * apply reach_sym; [assumption|]. apply (avoid_without g [a] _ _ a e M He); [left; now left|].
            apply Hbp. intros x Hx [<-|[]]. apply HaD. now apply GD.
    Qed.
    Lemma no_exit_bridge : (forall a e, In a X -> In e (out a) -> In (e_tgt e) X \/ In (e_tgt e) G) ->
      In u X -> (forall a e, In a X -> In e (out a) -> In (e_tgt e) G -> e_id e = e_id e0) -> is_bridge g e0.
    Proof using M HuG GD HR En.
      intros Cl HuX No J. destruct En as ((G' & EG) & Hp & Eu).
      apply (reach_sym _ _ _ (without_sym g (e_id e0) M)) in J. rewrite Eu in J. fold p in J.
      assert (forall v, reach (without g (e_id e0)) u v -> In v X) as H.
      { induction 1 as [|v w _ IH (e & He & <-)]; [assumption|]. apply without_in in He. destruct He as (He & Hi).
        destruct (Cl v e IH He) as [?|Hg]; [assumption|]. now destruct Hi; apply (No v e). }
      apply H in J. apply HR in J. apply reach_avoid_end in J. apply J, GD. rewrite EG. now left.
    Qed.
  End Exit.

  (** *** One edge *)
  Lemma relax_other e s :
    br_out (br_relax parallel e s) = br_out s /\ br_c (br_relax parallel e s) = br_c s /\ br_now (br_relax parallel e s) = br_now s.
  Proof.
    unfold br_relax. destruct (br_top s) as [|(p & x) r]; [|destruct (p =? e_tgt e)%nat; [destruct (once parallel x) as (b & x'); destruct b; [now cbn|]|]];
      cbv zeta; now destruct (br_low s (e_tgt e) <? br_low s (e_src e)).
  Qed.
  (** Not skipped. *)
  Lemma relax_low e s : match br_top s with [] => True | (p, x) :: _ => p = e_tgt e -> fst (once parallel x) = false end ->
    let s' := br_relax parallel e s in
    if br_low s (e_tgt e) <? br_low s (e_src e)
    then br_low s' = upd (br_low s) (e_src e) (br_low s (e_tgt e)) /\ br_not_root s' = upd (br_not_root s) (e_src e) true
    else br_low s' = br_low s /\ br_not_root s' = br_not_root s.
  Proof.
    unfold br_relax. destruct (br_top s) as [|(p & x) r]; intro H; cbv zeta.
    - now destruct (br_low s (e_tgt e) <? br_low s (e_src e)).
    - destruct (Nat.eqb_spec p (e_tgt e)) as [->|n].
      + specialize (H eq_refl). destruct (once parallel x) as (b & x'). cbn in H. subst b.
        now destruct (br_low s (e_tgt e) <? br_low s (e_src e)).
      + now destruct (br_low s (e_tgt e) <? br_low s (e_src e)).
  Qed.
  Lemma relax_top e s : match br_top s with [] => br_top (br_relax parallel e s) = []
    | (p, x) :: r => br_top (br_relax parallel e s) = (p, if (p =? e_tgt e)%nat then snd (once parallel x) else x) :: r end.
  Proof.
    unfold br_relax. destruct (br_top s) as [|(p & x) r]; cbv zeta.
    - now destruct (br_low s (e_tgt e) <? br_low s (e_src e)).
    - destruct (p =? e_tgt e)%nat; [destruct (once parallel x) as (b & x'); destruct b; [reflexivity|]|];
        now destruct (br_low s (e_tgt e) <? br_low s (e_src e)).
  Qed.
  Lemma relax_skip e s p x r : br_top s = (p, x) :: r -> p = e_tgt e -> fst (once parallel x) = true ->
    br_low (br_relax parallel e s) = br_low s /\ br_not_root (br_relax parallel e s) = br_not_root s.
  Proof.
    intros Et -> H. unfold br_relax. rewrite Et, Nat.eqb_refl. destruct (once parallel x) as (b & x'). cbn in H. subst b. now cbn.
  Qed.

  (** The invariant does not depend on the search stack, and survives lowering
      of the number of the current vertex. *)
  Lemma binv_ext G D P s s' : br_out s' = br_out s -> br_c s' = br_c s -> br_now s' = br_now s ->
    (forall b, In b G -> 1 <= br_low s' b <= T b) -> (forall v, ~ In v D -> br_not_root s' v = br_not_root s v) ->
    binv G D P s -> binv G D P s'.
  Proof.
    intros E1 E2 E3 E4 E5 []. split; rewrite ?E1, ?E2, ?E3; auto.
    - intros b Hb. split; [now apply bi_gray0 | auto].
    - intros v Lv Hv. rewrite E5 by assumption. auto.
  Qed.

  Lemma visit_scan_bridge :
    (forall u D t D', visit g u D t D' -> ~ In u D -> (u < g_n g)%nat -> NoDup D -> (forall v, In v D -> (v < g_n g)%nat) -> times T D' ->
       forall G P s par top, binv G D P s -> ~ In u G -> chain g G -> entered par u G ->
       br_top s = match par with None => [] | Some e0 => (e_src e0, true) :: top end ->
       let s' := run V t s in
       exists Z, binv (u :: G) D' (Z ++ P) s' /\ bpost u G D (rev (discovers t)) par s' /\
         (forall v, In v D -> br_low s' v = br_low s v /\ br_not_root s' v = br_not_root s v) /\
         (forall v, In v Z -> nb_reach g v u) /\ incl Z (discovers t) /\
         (br_not_root s' u = false -> Z = []) /\ tl (br_top s') = tl (br_top s) /\
         (forall e, reported s e -> reported s' e)) /\
    (forall u es D t D', scan_es g u es D t D' -> NoDup D -> (forall v, In v D -> (v < g_n g)%nat) -> times T D' ->
       forall G Z1 P s par D0 X Q, Q ++ es = out u -> D = X ++ D0 -> In u X ->
       binv (u :: G) D (Z1 ++ u :: P) s -> bcur u G D0 X Q par s -> ~ In u G -> chain g G -> entered par u G ->
       incl G D0 -> incl P D0 -> (forall b v, In b D0 -> ~ In b G -> arc g b v -> In v D0) ->
       incl Z1 X -> (forall v, In v Z1 -> nb_reach g v u) ->
       let s' := run V t s in
       exists Z, binv (u :: G) D' (Z ++ P) s' /\ bpost u G D0 (rev (discovers t) ++ X) par s' /\
         (forall v, In v D -> v <> u -> br_low s' v = br_low s v /\ br_not_root s' v = br_not_root s v) /\
         (forall v, In v Z -> nb_reach g v u) /\ incl Z (rev (discovers t) ++ X) /\
         (br_not_root s' u = false -> Z = []) /\ tl (br_top s') = tl (br_top s) /\
         (forall e, reported s e -> reported s' e)).
  Proof.
    apply visit_scan_ind.
    - (* visit *)
      intros u D t D' H IH Hu Lu N L HT G P s par top I HuG HC En Et. cbv zeta.
      change (run V (EDiscover u :: EStart u :: t) s) with (run V t (v_step V (EStart u) s)).
      set (s1 := v_step V (EStart u) s). pose proof (scan_times _ _ _ _ _ _ _ H HT) as HTu.
      pose proof (times_head _ _ _ HTu) as Tu.
      assert (forall v, In v D -> br_low s1 v = br_low s v) as Old.
      { intros v Hv. cbn. apply upd_other. intros ->. contradiction. }
      assert (br_low s1 u = T u) as Lu1.
      { cbn. rewrite upd_same, (bi_now _ _ _ _ I). lia. }
      pose proof (bi_white _ _ _ _ I u Lu Hu) as Nr.
      assert (incl G D) as GD by (intros b Hb; now apply (bi_gray _ _ _ _ I)).
      destruct (IH) with (G := G) (Z1 := @nil nat) (P := P) (s := s1) (par := par) (D0 := D) (X := [u]) (Q := @nil edge)
        as (Z & I' & B' & K' & R' & S' & E' & Tp' & Rp'); auto.
      + now constructor.
      + intros v [<-|Hv]; auto.
      + now left.
      + destruct I. split; try assumption.
        * cbn. rewrite bi_now0. lia.
        * intros b [<-|Hb]; [split; [now left|]; rewrite Lu1; cbn [length] in *; lia|].
          destruct (bi_gray0 b Hb). rewrite Old by assumption. split; [now right | assumption].
        * intros v Lv Hv. cbn. apply bi_white0; [assumption|]. intro; apply Hv; now right.
        * intros b v [<-|Hb] Hg Ha; [destruct Hg; now left|]. right. apply (bi_closed0 b v); auto. intro; apply Hg; now right.
        * cbn. now rewrite bi_stack0.
        * intros v [<-|Hv]; [now left | right; auto].
        * cbn. constructor; [|assumption]. intro; auto.
        * intros v e Hv HvP He J. cbn in HvP. destruct Hv as [<-|Hv]; [tauto|].
          destruct (bi_labA0 v e Hv) as (A1 & A2 & A3); try assumption; [tauto|]. split; [now right|]. split; [|assumption].
          intros [E|?]; [rewrite <- E in A1; contradiction | contradiction].
        * intros v w Hv Hw HvP HwP. cbn in HvP, HwP. destruct Hv as [<-|Hv]; [tauto|]. destruct Hw as [<-|Hw]; [tauto|].
          apply bi_labB0; tauto.
        * intros v Hv HvP. cbn in HvP. destruct Hv as [<-|Hv]; [tauto|]. apply bi_rng0; tauto.
        * intros e He. destruct (bi_out0 e He) as (A1 & A2 & A3 & A4). split; [assumption|]. split; [assumption|]. split; [now right|].
          intros [X|?]; [rewrite X in Hu; contradiction | contradiction].
      + split.
        * intros v [<-|[]]. now apply ra_refl.
        * rewrite Lu1, Z.ltb_irrefl. exact Nr.
        * intros v [<-|[]]. lia.
        * rewrite Lu1. lia.
        * intros a e [<-|[]]. congruence.
        * intros a e [<-|[]]. congruence.
        * intros a e [<-|[]]. congruence.
        * easy.
        * change (br_top s1) with (br_top s). rewrite Et. destruct par as [e0|]; [|reflexivity].
          exists true, top, None. repeat split; try easy.
      + intros v Hv. now apply (bi_pin _ _ _ _ I).
      + apply (bi_closed _ _ _ _ I).
      + easy.
      + easy.
      + exists Z. split; [assumption|].
        assert (rev (discovers t) ++ [u] = rev (discovers (EDiscover u :: EStart u :: t))) as Er by reflexivity.
        rewrite Er in *. split; [assumption|]. split; [|split; [assumption|split; [|split; [assumption | split; assumption]]]].
        * intros v Hv. assert (v <> u) by (intros ->; contradiction).
          destruct (K' v (or_intror Hv)) as (-> & ->); [assumption|]. split; [now apply Old | reflexivity].
        * intros v Hv. apply S' in Hv. now apply in_rev in Hv.
    - (* end of the scan *)
      intros u D N L HT G Z1 P s par D0 X Q EQ -> HuX I C HuG HC En GD PD Bl ZX Zn. cbv zeta.
      change (rev (discovers [EFinish u]) ++ X) with X.
      rewrite app_nil_r in EQ.
      assert (~ In u D0) as HuD by (apply reach_avoid_start with g u; now apply (bc_reach _ _ _ _ _ _ _ C)).
      assert (bpost u G D0 X par s) as Bp.
      { destruct C. split; try assumption.
        - intros a e Ha He Hb Ho. destruct (Nat.eq_dec a u) as [->|n]; [|now apply bc_exit0 with a].
          destruct par as [e0|]; [|cbn in En; now rewrite En in Hb].
          destruct En as ((G' & EG) & Hp & Eu). destruct bc_flag0 as (x & r & sk & F1 & F2 & F3 & F4 & F5).
          destruct (F5 e) as [?|(Ep & Hs)]; [now rewrite EQ | assumption | assumption |].
          assert (In (rev_edge e0) (out u)) as Hrev by (rewrite <- Eu; now apply (mg_rev _ M) in Hp).
          assert (rev_edge e0 <> e) as Hne by (intros <-; now destruct Ho).
          destruct parallel eqn:Par.
          + destruct Hs as [?|Hs]; [discriminate|]. destruct (F5 (rev_edge e0)) as [Hl|(_ & [?|Hs'])]; try congruence.
            * cbn. rewrite EG. now left.
            * cbn in Hl. now rewrite Ep.
          + destruct Hne. symmetry. apply (par_ok eq_refl u); auto.
        - intros a e Ha He. destruct (Nat.eq_dec a u) as [->|n]; [|now apply bc_closed0 with a]. apply bc_done0. now rewrite EQ.
        - intros a e Ha He. destruct (Nat.eq_dec a u) as [->|n]; [|destruct (bc_known0 a e Ha n He); auto].
          destruct (bc_done0 e) as [Hx|Hg]; [now rewrite EQ| |].
          + destruct (Nat.eq_dec (e_tgt e) u) as [E|n].
            * right; left. unfold joined. destruct (mg_wf _ M _ _ He) as (-> & _). rewrite E. constructor.
            * destruct (bc_known0 _ (rev_edge e) Hx n (mg_rev _ M _ _ He)) as [R|J]; [now left|]. right; left.
              eapply joined_same; [exact M | eapply (mg_rev _ M); exact He | exact He | reflexivity | exact J].
          + destruct par as [e0|]; [|cbn in En; now rewrite En in Hg].
            destruct (Nat.eq_dec (e_id e) (e_id e0)) as [Ei|n]; [right; right; now exists e0|]. right; left.
            apply (exit_joins u G D0 X HuG GD HC bc_reach0 e0 En u e); assumption. }
      change (run V [EFinish u] s) with (if br_not_root s u then s
        else {| br_out := br_out s; br_c := cs_pop (br_c s) u; br_low := br_low s; br_not_root := br_not_root s;
                br_now := br_now s; br_top := br_top s |}).
      destruct (br_not_root s u) eqn:Nr.
      + exists (Z1 ++ [u]). rewrite <- app_assoc. cbn [app]. split; [assumption|]. split; [assumption|].
        split; [auto|]. split; [|split; [|split; [congruence | split; [reflexivity | auto]]]].
        * intros v Hv. apply in_app_iff in Hv. destruct Hv as [Hv|[<-|[]]]; [auto | constructor].
        * intros v Hv. apply in_app_iff in Hv. destruct Hv as [Hv|[<-|[]]]; auto.
      + exists []. cbn [app].
        assert (NoDup (Z1 ++ u :: P)) as Nd by exact (bi_pnd _ _ _ _ I).
        assert (~ In u Z1) as HuZ.
        { intro Y. apply NoDup_remove_2 in Nd. apply Nd. apply in_app_iff. now left. }
        destruct (cs_pop_loop_ok (cs_map (br_c s)) (cs_n (br_c s)) Z1 u P HuZ) as (m' & Ep & Fm).
        assert (cs_pop (br_c s) u = {| cs_map := m'; cs_stack := P; cs_n := cs_n (br_c s) + 1; cs_ub := false |}) as ->.
        { unfold cs_pop. rewrite (bi_stack _ _ _ _ I), Ep, (bi_ub _ _ _ _ I). reflexivity. }
        assert (forall v, In v (Z1 ++ [u]) -> m' v = cs_n (br_c s)) as Mn.
        { intros v Hv. rewrite Fm. apply existsb_eqb in Hv. now rewrite Hv. }
        assert (forall v, ~ In v (Z1 ++ [u]) -> m' v = cs_map (br_c s) v) as Mo.
        { intros v Hv. rewrite Fm. destruct (existsb (Nat.eqb v) (Z1 ++ [u])) eqn:E; [|reflexivity]. apply existsb_eqb in E. contradiction. }
        assert (forall v, In v (Z1 ++ [u]) -> nb_reach g v u) as Rz.
        { intros v Hv. apply in_app_iff in Hv. destruct Hv as [Hv|[<-|[]]]; [auto | constructor]. }
        assert (forall v, ~ In v P -> ~ In v (Z1 ++ [u]) -> ~ In v (Z1 ++ u :: P)) as Nn.
        { intros v A B. rewrite in_app_iff in *. cbn in *. tauto. }
        assert (forall v, In v (Z1 ++ [u]) -> In v X) as ZuX.
        { intros v Hv. apply in_app_iff in Hv. destruct Hv as [Hv|[<-|[]]]; auto. }
        (* joined edges do not leave the new component *)
        assert (forall v e, In v (Z1 ++ [u]) -> In e (out v) -> joined g e -> In (e_tgt e) (Z1 ++ [u])) as Cl.
        { intros v e Hv He J. pose proof (ZuX v Hv) as HvX. destruct (bp_closed _ _ _ _ _ _ Bp v e HvX He) as [Hx|Hg].
          - destruct (in_dec Nat.eq_dec (e_tgt e) (Z1 ++ u :: P)) as [Hi|Hi].
            + rewrite in_app_iff in *. cbn in *. destruct Hi as [?|[?|Hi]]; auto.
              apply PD in Hi. apply (bp_reach _ _ _ _ _ _ Bp) in Hx. now apply reach_avoid_end in Hx.
            + exfalso. destruct (bi_labA _ _ _ _ I (e_tgt e) (rev_edge e)) as (_ & A & _).
              * apply in_app_iff. now left.
              * assumption.
              * now apply (mg_rev _ M) in He.
              * eapply joined_same; [exact M | exact He | eapply (mg_rev _ M); exact He | reflexivity | exact J].
              * cbn in A. destruct (mg_wf _ M _ _ He) as (E1 & _). rewrite E1 in A. apply A.
                rewrite in_app_iff in *. cbn in *. tauto.
          - exfalso. destruct par as [e0|]; [|cbn in En; now rewrite En in Hg].
            assert (forall a e', In a X -> In e' (out a) -> In (e_tgt e') G -> e_id e' = e_id e0) as NoX.
            { intros a e' Ha He' Hg'. destruct (Nat.eq_dec (e_id e') (e_id e0)) as [?|n]; [assumption|]. exfalso.
              pose proof (bp_exit _ _ _ _ _ _ Bp a e' Ha He' Hg' n) as Hl.
              pose proof (bp_nr _ _ _ _ _ _ Bp) as En'. rewrite Nr in En'. symmetry in En'. apply Z.ltb_ge in En'.
              destruct (bi_gray _ _ _ _ I _ (or_intror Hg')) as (_ & Hb).
              clear - HT Hb En' Hl HuX HuD Hg' GD Bp. 
              assert (T (e_tgt e') < T u); [|lia].
              pose proof (times_app _ _ _ HT) as HT0. pose proof (times_range _ _ _ HT0 (GD _ Hg')) as Hr.
              clear - HT HuX Hr. induction X as [|x X IH]; [easy|]. destruct HT as (A & B). destruct HuX as [->|HuX]; [|auto].
              rewrite A. cbn [length]. rewrite app_length. lia. }
            pose proof (no_exit_bridge u G D0 X HuG GD (bp_reach _ _ _ _ _ _ Bp) e0 En (bp_closed _ _ _ _ _ _ Bp) HuX NoX) as Hbr.
            apply Hbr. destruct En as (_ & Hp & _). eapply joined_same; [exact M | exact He | exact Hp | now apply (NoX v) | exact J]. }
        split; [|split; [|split; [|split; [|split; [|split; [|split]]]]]]; try easy.
        * destruct I. split; try assumption.
          -- reflexivity.
          -- reflexivity.
          -- intros v Hv. apply bi_pin0. apply in_app_iff. right. now right.
          -- apply NoDup_remove_1 in Nd. clear - Nd. induction Z1; [assumption|]. inversion Nd; auto.
          -- cbn [br_c cs_map]. intros v e Hv HvP He J. destruct (in_dec Nat.eq_dec v (Z1 ++ [u])) as [A|A].
             ++ pose proof (Cl v e A He J) as B. split; [apply in_app_iff; left; auto|]. split.
                ** intro HP. apply PD in HP. apply ZuX in B. apply (bp_reach _ _ _ _ _ _ Bp) in B. now apply reach_avoid_end in B.
                ** now rewrite (Mn _ A), (Mn _ B).
             ++ destruct (bi_labA0 v e Hv (Nn v HvP A) He J) as (A1 & A2 & A3). split; [assumption|]. split.
                ** intro. apply A2. apply in_app_iff. right. now right.
                ** rewrite (Mo v A), Mo; [assumption|]. intro. apply A2. rewrite in_app_iff in *. cbn in *. tauto.
          -- cbn [br_c cs_map]. intros v w Hv Hw HvP HwP.
             destruct (in_dec Nat.eq_dec v (Z1 ++ [u])) as [A|A], (in_dec Nat.eq_dec w (Z1 ++ [u])) as [B|B].
             ++ intros _. apply nb_trans with u; [now apply Rz | apply nb_sym; [assumption | now apply Rz]].
             ++ rewrite (Mn v A), (Mo w B). specialize (bi_rng0 w Hw (Nn w HwP B)). lia.
             ++ rewrite (Mo v A), (Mn w B). specialize (bi_rng0 v Hv (Nn v HvP A)). lia.
             ++ rewrite (Mo v A), (Mo w B). apply bi_labB0; auto.
          -- cbn [br_c cs_map cs_n]. intros v Hv HvP. destruct (in_dec Nat.eq_dec v (Z1 ++ [u])) as [A|A].
             ++ rewrite (Mn v A). lia.
             ++ rewrite (Mo v A). specialize (bi_rng0 v Hv (Nn v HvP A)). lia.
          -- cbn. lia.
        * destruct Bp. split; assumption.
    - (* an edge to a discovered vertex *)
      intros u e es D t D' Hi H IH N L HT G Z1 P s par D0 X Q EQ -> HuX I C HuG HC En GD PD Bl ZX Zn. cbv zeta.
      change (run V (ENonTree e :: t) s) with (run V t (br_relax parallel e s)).
      change (discovers (ENonTree e :: t)) with (discovers t).
      assert (In e (out u)) as He by (rewrite <- EQ; apply in_app_iff; right; now left).
      destruct (mg_wf _ M _ _ He) as (E1 & E2).
      assert (~ In u D0) as HuD by (apply reach_avoid_start with g u; now apply (bc_reach _ _ _ _ _ _ _ C)).
      assert (In (e_tgt e) X \/ In (e_tgt e) G) as Hb.
      { apply in_app_iff in Hi. destruct Hi as [?|Hi]; [now left|]. right.
        destruct (in_dec Nat.eq_dec (e_tgt e) G) as [?|n]; [assumption|]. destruct HuD.
        apply (Bl (e_tgt e) u Hi n). apply (multigraph_sym g M). now exists e. }
      set (s1 := br_relax parallel e s). destruct (relax_other e s) as (O1 & O2 & O3). fold s1 in O1, O2, O3.
      assert (tl (br_top s1) = tl (br_top s)) as Ot.
      { pose proof (relax_top e s) as R. fold s1 in R. destruct (br_top s) as [|(p & x) r]; rewrite R; reflexivity. }
      assert ((Q ++ [e]) ++ es = out u) as EQ' by (rewrite <- app_assoc; exact EQ).
      assert (forall P', (bcur u G D0 X (Q ++ [e]) par s1 /\ (forall v, v <> u -> br_low s1 v = br_low s v /\ br_not_root s1 v = br_not_root s v) /\
         1 <= br_low s1 u <= T u -> P') -> P') as Step.
      { intros P' K'. apply K'. clear K' IH H.
        destruct (bi_gray _ _ _ _ I u (or_introl eq_refl)) as (_ & Lu).
        (* skipped? *)
        destruct (match br_top s with [] => false | (p, x) :: _ => (p =? e_tgt e)%nat && fst (once parallel x) end) eqn:Sk.
        - destruct (br_top s) as [|(p & x) r] eqn:Et; [discriminate|]. apply andb_true_iff in Sk. destruct Sk as (Sp & Sx).
          apply Nat.eqb_eq in Sp. destruct (relax_skip e s p x r Et Sp Sx) as (L1 & L2). fold s1 in L1, L2.
          rewrite L1, L2. split; [|auto]. destruct C. split; rewrite ?L1, ?L2; unfold reported in *; rewrite ?O1; try assumption.
          + intros e' He'. apply in_app_iff in He'. destruct He' as [?|[<-|[]]]; auto.
          + pose proof (relax_top e s) as R. rewrite Et in R. fold s1 in R. rewrite R. destruct par as [e0|]; [|congruence].
            destruct bc_flag0 as (x0 & r0 & sk & F1 & F2 & F3 & F4 & F5). rewrite Et in F1. injection F1 as -> <- <-.
            rewrite <- Sp, Nat.eqb_refl in *. unfold once in *.
            destruct parallel eqn:Par.
            * rewrite (F2 eq_refl) in Sx. destruct sk as [e'|]; [discriminate|]. rewrite (F2 eq_refl).
              exists false, r, (Some e). split; [reflexivity|]. split; [reflexivity|]. split; [|split; [easy|]].
              -- intros e' [= <-]. split; [apply in_app_iff; right; now left | auto].
              -- intros e' He' Hg'. apply in_app_iff in He'. destruct He' as [He'|[<-|[]]]; [|right; auto].
                 destruct (F5 e' He' Hg') as [?|(?& [?|?])]; [now left | discriminate | discriminate].
            * exists x, r, sk. split; [reflexivity|]. split; [discriminate|]. split; [|split; [discriminate|]].
              -- intros e' Es. destruct (F3 e' Es). split; [apply in_app_iff; now left | assumption].
              -- intros e' He' Hg'. apply in_app_iff in He'. destruct He' as [He'|[<-|[]]]; [|right; auto]. auto.
        - assert (match br_top s with [] => True | (p, x) :: _ => p = e_tgt e -> fst (once parallel x) = false end) as Ns.
          { destruct (br_top s) as [|(p & x) r]; [exact Logic.I|]. intros ->. now rewrite Nat.eqb_refl in Sk. }
          pose proof (relax_low e s Ns) as R. fold s1 in R. cbv zeta in R. rewrite E1 in R.
          (* the search stack after a relaxation *)
          assert (br_low s1 u <= br_low s (e_tgt e) -> br_low s1 u <= br_low s u ->
            (forall v, v <> u -> br_low s1 v = br_low s v) ->
            match par with
            | None => br_top s1 = []
            | Some e0 => exists x r sk, br_top s1 = (e_src e0, x) :: r /\
                (parallel = true -> x = match sk with None => true | Some _ => false end) /\
                (forall e', sk = Some e' -> In e' (Q ++ [e]) /\ e_tgt e' = e_src e0) /\
                (parallel = true -> sk = None -> forall e', In e' (Q ++ [e]) -> e_tgt e' <> e_src e0) /\
                (forall e', In e' (Q ++ [e]) -> In (e_tgt e') G -> br_low s1 u <= br_low s1 (e_tgt e') \/
                   e_tgt e' = e_src e0 /\ (parallel = false \/ sk = Some e'))
            end) as Fl.
          { intros A B Cc. pose proof (relax_top e s) as Rt. fold s1 in Rt. pose proof (bc_flag _ _ _ _ _ _ _ C) as Fl.
            destruct par as [e0|]; [|now rewrite Fl in Rt].
            destruct Fl as (x0 & r0 & sk & F1 & F2 & F3 & F4 & F5). rewrite F1 in *.
            assert (forall y, In y G -> y <> u) as Gu by (intros y Hy ->; contradiction).
            exists (if (e_src e0 =? e_tgt e)%nat then snd (once parallel x0) else x0), r0, sk. split; [assumption|]. split; [|split; [|split]].
            - intro Par. rewrite (F2 Par) in *. destruct (Nat.eqb_spec (e_src e0) (e_tgt e)) as [Ee|_]; [|reflexivity].
              specialize (Ns Ee). unfold once in *. rewrite Par in *. now destruct sk.
            - intros e' Es. destruct (F3 e' Es). split; [apply in_app_iff; now left | assumption].
            - intros Par Es e' He'. apply in_app_iff in He'. destruct He' as [He'|[<-|[]]]; [auto|]. intro Ee.
              specialize (Ns (eq_sym Ee)). unfold once in Ns. rewrite Par, (F2 Par), Es in Ns. discriminate.
            - intros e' He' Hg'. rewrite (Cc (e_tgt e')) by auto. apply in_app_iff in He'. destruct He' as [He'|[<-|[]]].
              + destruct (F5 e' He' Hg') as [?|?]; [left; lia | now right].
              + now left. }
          destruct (Z.ltb_spec (br_low s (e_tgt e)) (br_low s u)) as [Hl|Hl]; destruct R as (L1 & L2).
          + assert (In (e_tgt e) G) as Hg.
            { destruct Hb as [Hx|?]; [|assumption]. pose proof (bc_min _ _ _ _ _ _ _ C _ Hx). lia. }
            destruct (bi_gray _ _ _ _ I _ (or_intror Hg)) as (_ & Lb).
            assert (forall v, v <> u -> br_low s1 v = br_low s v) as Ol by (intros v Hv; now rewrite L1, upd_other).
            assert (br_low s1 u = br_low s (e_tgt e)) as Lu1 by now rewrite L1, upd_same.
            assert (forall y, In y G -> y <> u) as Gu by (intros y Hy ->; contradiction).
            split; [|split; [intros v Hv; rewrite Ol by assumption; now rewrite L2, upd_other | lia]].
            specialize (Fl ltac:(lia) ltac:(lia) Ol). destruct C. split; try assumption.
            * rewrite L2, upd_same, Lu1. symmetry. apply Z.ltb_lt. lia.
            * intros v Hv. destruct (Nat.eq_dec v u) as [->|n]; [lia|]. rewrite (Ol v n), Lu1. specialize (bc_min0 v Hv). lia.
            * intros _. destruct par as [e0|]; [|cbn in En; now rewrite En in Hg].
              destruct En as ((G' & EG) & Hp & Eu).
              destruct (Nat.eq_dec (e_id e) (e_id e0)) as [Ei|n];
                [|exists u, e; split; [assumption|]; split; [assumption|]; split; [assumption|]; split; [exact n|]; rewrite Ol by auto; lia].
              (* the edge to the parent was counted: another parallel edge was skipped *)
              destruct bc_flag0 as (x0 & r0 & sk & F1 & F2 & F3 & F4 & F5). rewrite F1 in Ns.
              assert (e_tgt e = e_src e0) as Ep.
              { destruct (mg_ids _ M _ _ _ _ Hp He (eq_sym Ei)) as [->| ->]; [|reflexivity]. cbn in *. congruence. }
              specialize (Ns (eq_sym Ep)). unfold once in Ns. destruct parallel eqn:Par; [|discriminate].
              rewrite (F2 eq_refl) in Ns. destruct sk as [e'|]; [|discriminate].
              destruct (F3 e' eq_refl) as (Hq & Ep'). exists u, e'. split; [assumption|]. split; [rewrite <- EQ; apply in_app_iff; now left|].
              rewrite Ep'. split; [rewrite EG; now left|]. split; [|rewrite Ol by (apply Gu; rewrite EG; now left); rewrite <- Ep; lia].
              cbn. intro X'. pose proof (mg_once _ M u) as Nd. rewrite <- EQ in Nd. rewrite map_app in Nd. cbn [map] in Nd.
              apply NoDup_remove_2 in Nd. apply Nd. apply in_app_iff. left. rewrite Ei, <- X'. now apply in_map.
            * intros a e' Ha Hn He' Hg'. rewrite (Ol (e_tgt e')) by auto. specialize (bc_exit0 a e' Ha Hn He' Hg'). lia.
            * intros a e' Ha Hn He'. unfold reported in *. rewrite O1. now apply bc_known0 with a.
            * intros e' He'. apply in_app_iff in He'. destruct He' as [?|[<-|[]]]; auto.
          + rewrite L1, L2. split; [|auto]. specialize (Fl ltac:(now rewrite L1) ltac:(rewrite L1; lia) ltac:(now rewrite L1)).
            destruct C. split; rewrite ?L1, ?L2; try assumption.
            * intros a e' Ha Hn He'. unfold reported in *. rewrite O1. now apply bc_known0 with a.
            * intros e' He'. apply in_app_iff in He'. destruct He' as [?|[<-|[]]]; auto.
            * rewrite L1 in Fl. exact Fl. }
      apply Step. clear Step. intros (C1 & Ol & Lu1).
      destruct (IH N L HT G Z1 P s1 par D0 X (Q ++ [e]) EQ' eq_refl HuX) as (Z & I' & B' & K' & R' & S' & E' & Tp' & Rp'); auto.
      + apply (binv_ext _ _ _ s); auto.
        * intros b [<-|Hbb]; [assumption|]. destruct (Ol b) as (-> & _); [intros ->; contradiction|]. apply (bi_gray _ _ _ _ I). now right.
        * intros v Hv. apply Ol. intros ->. apply Hv. apply in_app_iff. now left.
      + exists Z. split; [assumption|]. split; [assumption|]. split; [|split; [assumption | split; [assumption | split; [assumption | split; [congruence|]]]]].
        * intros v Hv Hn. destruct (K' v Hv Hn) as (-> & ->). auto.
        * intros e' He'. apply Rp'. unfold reported in *. now rewrite O1.
    - (* a tree edge *)
      intros u e es D t1 D1 t2 D' Hn H1 IH1 H2 IH2 N L HT G Z1 P s par D0 X Q EQ -> HuX I C HuG HC En GD PD Bl ZX Zn. cbv zeta.
      assert (In e (out u)) as He by (rewrite <- EQ; apply in_app_iff; right; now left).
      destruct (mg_wf _ M _ _ He) as (E1 & E2). set (c := e_tgt e) in *. set (D := X ++ D0) in *.
      assert (In u D) as Hu by (apply in_app_iff; now left).
      assert (~ In u D0) as HuD by (apply reach_avoid_start with g u; now apply (bc_reach _ _ _ _ _ _ _ C)).
      set (s0 := v_step V (ETreeStart e) s).
      assert (run V (ETreeStart e :: t1 ++ ETreeFinish e :: t2) s = run V t2 (v_step V (ETreeFinish e) (run V t1 s0))) as ->.
      { change (run V (t1 ++ ETreeFinish e :: t2) s0 = run V t2 (v_step V (ETreeFinish e) (run V t1 s0))). now rewrite run_app. }
      change (discovers (ETreeStart e :: t1 ++ ETreeFinish e :: t2)) with (discovers (t1 ++ ETreeFinish e :: t2)).
      rewrite discovers_app. change (discovers (ETreeFinish e :: t2)) with (discovers t2).
      pose proof (scan_times _ _ _ _ _ _ _ H2 HT) as HT1.
      assert (~ In c (u :: G)) as HcG by (intro Y; apply Hn; now apply (bi_gray _ _ _ _ I)).
      assert (c <> u) as Hcu by (intros Y; apply HcG; left; auto).
      assert (incl (u :: G) D) as GD1 by (intros b Hb; now apply (bi_gray _ _ _ _ I)).
      assert (chain g (u :: G)) as HC1.
      { destruct par as [e0|]; [|cbn in En; rewrite En; exact Logic.I]. destruct En as ((G' & EG) & Hp & Eu).
        rewrite EG in *. split; [now exists e0 | assumption]. }
      assert (entered (Some e) c (u :: G)) as En1.
      { cbn. rewrite E1. split; [now exists G|]. auto. }
      assert (binv (u :: G) D (Z1 ++ u :: P) s0) as I0.
      { apply (binv_ext _ _ _ s); auto. intros b Hb. now apply (bi_gray _ _ _ _ I). }
      destruct (IH1 Hn E2 N L HT1 (u :: G) (Z1 ++ u :: P) s0 (Some e) (br_top s) I0 HcG HC1 En1)
        as (Zc & I1 & B1 & K1 & Rc & Sc & Ec & Tp1 & Rp1); [reflexivity|].
      clear IH1. set (s1 := run V t1 s0) in *. set (Xc := rev (discovers t1)) in *.
      change (tl (br_top s0)) with (br_top s) in Tp1.
      destruct (K1 u Hu) as (Lu1 & Nu1). change (br_low s0) with (br_low s) in *. change (br_not_root s0) with (br_not_root s) in *.
      pose proof (visit_times _ _ _ _ _ _ H1 HT1) as HTc. pose proof (times_head _ _ _ HTc) as Tc.
      assert (forall b, In b D -> T b < T c) as Tbc.
      { intros b Hb. destruct HTc as (_ & HTD). pose proof (times_range _ _ _ HTD Hb). lia. }
      assert (In c Xc) as HcX by (apply -> in_rev; now apply (visit_discovers_root _ _ _ _ _ H1)).
      assert (forall a, In a Xc -> ~ In a D) as XcD.
      { intros a Ha. apply reach_avoid_end with g c. now apply (bp_reach _ _ _ _ _ _ B1). }
      assert (D1 = Xc ++ D) as ED1 by exact (proj1 (visit_scan_discovers g) _ _ _ _ H1).
      assert (forall b, In b D -> br_low s1 b = br_low s b) as K1l by (intros b Hb; now apply K1).
      (* bridge or not *)
      assert (forall a e', In a Xc -> In e' (out a) -> In (e_tgt e') (u :: G) -> e_id e' <> e_id e -> br_low s1 c < T c) as Ex.
      { intros a e' Ha He' Hg Hi'. pose proof (bp_exit _ _ _ _ _ _ B1 a e' Ha He' Hg Hi') as Hl.
        rewrite (K1l (e_tgt e')) in Hl by auto. pose proof (Tbc _ (GD1 _ Hg)) as Tb.
        destruct (bi_gray _ _ _ _ I _ Hg) as (_ & Lb). lia. }
      assert (br_not_root s1 c = true -> joined g e) as Jt.
      { intro Nr. rewrite (bp_nr _ _ _ _ _ _ B1) in Nr. apply Z.ltb_lt in Nr.
        destruct (bp_sound _ _ _ _ _ _ B1 Nr) as (a & e' & Ha & He' & Hg & Ho & _).
        apply (exit_joins c (u :: G) D Xc HcG GD1 HC1 (bp_reach _ _ _ _ _ _ B1) e En1 a e' Ha He' Hg Ho). }
      assert (br_not_root s1 c = false -> is_bridge g e) as Jf.
      { intro Nr. rewrite (bp_nr _ _ _ _ _ _ B1) in Nr. apply Z.ltb_ge in Nr.
        apply (no_exit_bridge c (u :: G) D Xc HcG GD1 (bp_reach _ _ _ _ _ _ B1) e En1 (bp_closed _ _ _ _ _ _ B1) HcX).
        intros a e' Ha He' Hg. destruct (Nat.eq_dec (e_id e') (e_id e)) as [?|n]; [assumption|]. specialize (Ex a e' Ha He' Hg n). lia. }
      (* the step *)
      set (s1t := {| br_out := br_out s1; br_c := br_c s1; br_low := br_low s1; br_not_root := br_not_root s1;
                     br_now := br_now s1; br_top := tl (br_top s1) |}).
      set (s2 := br_relax parallel e s1t).
      set (s3 := v_step V (ETreeFinish e) s1).
      assert (br_top s1t = br_top s) as Et1 by exact Tp1.
      assert (match br_top s1t with [] => True | (p, _) :: _ => p <> c end) as Nsk.
      { rewrite Et1. pose proof (bc_flag _ _ _ _ _ _ _ C) as Fl. destruct par as [e0|]; [|now rewrite Fl].
        destruct Fl as (x0 & r0 & sk & -> & _). destruct En as ((G' & EG) & _). intros Y. apply Hn. apply GD1. right. rewrite EG. left. exact Y. }
      assert (br_top s2 = br_top s) as Et2.
      { pose proof (relax_top e s1t) as R. fold s2 in R. rewrite <- Et1. destruct (br_top s1t) as [|(p & x) r]; [assumption|].
        rewrite R. fold c. now apply Nat.eqb_neq in Nsk as ->. }
      destruct (relax_other e s1t) as (O1 & O2 & O3). fold s2 in O1, O2, O3. cbn in O1, O2, O3.
      assert (br_low s2 u = Z.min (br_low s u) (br_low s1 c) /\ (forall v, v <> u -> br_low s2 v = br_low s1 v) /\
        (forall v, v <> u -> br_not_root s2 v = br_not_root s1 v) /\
        br_not_root s2 u = (if br_low s1 c <? br_low s u then true else br_not_root s u)) as (A1 & A2 & A3 & A4).
      { assert (match br_top s1t with [] => True | (p, x) :: _ => p = e_tgt e -> fst (once parallel x) = false end) as Ns.
        { destruct (br_top s1t) as [|(p & x) r]; [exact Logic.I|]. intro. contradiction. }
        pose proof (relax_low e s1t Ns) as R. fold s2 in R. cbv zeta in R. cbn [br_low s1t br_not_root] in R. rewrite E1 in R. fold c in R.
        rewrite Lu1 in R. destruct (Z.ltb_spec (br_low s1 c) (br_low s u)) as [Hl|Hl]; destruct R as (R1 & R2); rewrite R1, R2.
        - rewrite !upd_same. split; [lia|]. repeat split; intros v Hv; now rewrite upd_other.
        - rewrite Lu1, Nu1. split; [lia|]. repeat split. }
      assert (br_not_root s2 c = br_not_root s1 c) as Nc2 by now apply A3.
      assert (s3 = if br_not_root s1 c then s2 else {| br_out := br_out s2 ++ [e]; br_c := br_c s2; br_low := br_low s2;
        br_not_root := br_not_root s2; br_now := br_now s2; br_top := br_top s2 |}) as E3.
      { rewrite <- Nc2. reflexivity. }
      assert (br_c s3 = br_c s1 /\ br_low s3 = br_low s2 /\ br_not_root s3 = br_not_root s2 /\ br_now s3 = br_now s1 /\ br_top s3 = br_top s)
        as (F1 & F2 & F3 & F4 & F5).
      { rewrite E3. destruct (br_not_root s1 c); cbn; auto. }
      assert (br_out s3 = if br_not_root s1 c then br_out s1 else br_out s1 ++ [e]) as F6.
      { rewrite E3. destruct (br_not_root s1 c); cbn; [assumption | now rewrite O1]. }
      assert (forall e', reported s1 e' -> reported s3 e') as Rp3.
      { intros e' R. unfold reported in *. rewrite F6. destruct (br_not_root s1 c); [assumption|]. rewrite map_app. apply in_app_iff. now left. }
      assert (forall e', reported s e' -> reported s3 e') as Rp03 by (intros e' R; apply Rp3, Rp1; exact R).
      assert (forall v, v <> u -> br_low s3 v = br_low s1 v) as L3 by (intros v Hv; rewrite F2; auto).
      assert (br_low s3 u = Z.min (br_low s u) (br_low s1 c)) as L3u by now rewrite F2.
      assert (forall v, In v D -> v <> u -> br_low s3 v = br_low s v) as L3D.
      { intros v Hv Hvu. rewrite L3 by assumption. auto. }
      assert (forall y, In y G -> y <> u) as Gu by (intros y Hy ->; contradiction).
      assert (forall a, In a Xc -> a <> u) as Xu by (intros a Ha ->; now apply XcD in Ha).
      destruct (bi_gray _ _ _ _ I u (or_introl eq_refl)) as (_ & Lu).
      destruct (bi_gray _ _ _ _ I1 c (or_introl eq_refl)) as (HcD1 & Lc).
      pose proof (Tbc u Hu) as Tuc.
      (* the current vertex after the edge *)
      assert (bcur u G D0 (Xc ++ X) (Q ++ [e]) par s3) as C3.
      { destruct C. split.
        - intros v Hv. apply in_app_iff in Hv. destruct Hv as [Hv|Hv]; [|auto].
          apply reach_avoid_trans with c.
          + eapply ra_step; [now apply ra_refl | now exists e |]. intro. apply Hn. apply in_app_iff. now right.
          + apply reach_avoid_mono with D; [intros x Hx; apply in_app_iff; now right | now apply (bp_reach _ _ _ _ _ _ B1)].
        - rewrite L3u, F3, A4, bc_nr0. destruct (Z.ltb_spec (br_low s1 c) (br_low s u)).
          + symmetry. apply Z.ltb_lt. lia.
          + now rewrite Z.min_l by lia.
        - intros v Hv. rewrite L3u. destruct (Nat.eq_dec v u) as [->|n]; [lia|]. apply in_app_iff in Hv. destruct Hv as [Hv|Hv].
          + rewrite L3 by assumption. pose proof (bp_min _ _ _ _ _ _ B1 v Hv). lia.
          + rewrite L3D by (try apply in_app_iff; auto). specialize (bc_min0 v Hv). lia.
        - rewrite L3u. intro Hl. destruct (Z_lt_le_dec (br_low s1 c) (br_low s u)) as [Hc|Hc].
          + destruct (bp_sound _ _ _ _ _ _ B1) as (a & e' & Ha & He' & Hg & Ho & Hb); [lia|].
            destruct Hg as [Hg|Hg]; [rewrite <- Hg, Lu1 in Hb; lia|].
            exists a, e'. split; [apply in_app_iff; now left|]. split; [assumption|]. split; [assumption|]. split.
            * destruct par as [e0|]; [|exact Logic.I]. cbn. intro Ei. destruct En as ((G' & EG) & Hp & Eu).
              destruct (mg_wf _ M _ _ He') as (E1' & _). apply (XcD a Ha).
              destruct (mg_ids _ M _ _ _ _ Hp He' (eq_sym Ei)) as [->| ->]; cbn in E1'.
              -- rewrite <- E1'. apply GD1. right. rewrite EG. now left.
              -- rewrite <- E1', Eu. exact Hu.
            * rewrite L3 by auto. lia.
          + destruct bc_sound0 as (a & e' & Ha & He' & Hg & Ho & Hb); [lia|].
            exists a, e'. split; [apply in_app_iff; now right|]. split; [assumption|]. split; [assumption|]. split; [assumption|].
            rewrite L3D by (auto; apply GD1; now right). lia.
        - intros a e' Ha Hau He' Hg. rewrite L3u, L3D by (auto; apply GD1; now right).
          apply in_app_iff in Ha. destruct Ha as [Ha|Ha]; [|specialize (bc_exit0 a e' Ha Hau He' Hg); lia].
          pose proof (bp_exit _ _ _ _ _ _ B1 a e' Ha He' (or_intror Hg)) as Hl. rewrite (K1l (e_tgt e')) in Hl by (apply GD1; now right).
          enough (other (Some e) e') by (specialize (Hl H); lia). cbn. intro Ei.
          destruct (mg_ids _ M _ _ _ _ He He' (eq_sym Ei)) as [->| ->].
          + apply HcG. right. exact Hg.
          + cbn in Hg. rewrite E1 in Hg. contradiction.
        - intros a e' Ha Hau He'. apply in_app_iff in Ha. destruct Ha as [Ha|Ha].
          + destruct (bp_closed _ _ _ _ _ _ B1 a e' Ha He') as [?|[Hg|?]]; [left; apply in_app_iff; now left | | now right].
            left. apply in_app_iff. right. now rewrite <- Hg.
          + destruct (bc_closed0 a e' Ha Hau He'); [left; apply in_app_iff; now right | now right].
        - intros a e' Ha Hau He'. apply in_app_iff in Ha. destruct Ha as [Ha|Ha].
          + destruct (bp_known _ _ _ _ _ _ B1 a e' Ha He') as [R|[J|(e0' & [= <-] & Ei)]]; [left; auto | now right |].
            destruct (br_not_root s1 c) eqn:Nc.
            * right. eapply joined_same; [exact M | exact He | exact He' | now symmetry | auto].
            * left. unfold reported. rewrite F6, map_app, Ei. apply in_app_iff. right. now left.
          + destruct (bc_known0 a e' Ha Hau He'); [left; auto | now right].
        - intros e' He'. apply in_app_iff in He'. destruct He' as [He'|[<-|[]]].
          + destruct (bc_done0 e' He'); [left; apply in_app_iff; now right | now right].
          + left. apply in_app_iff. now left.
        - rewrite F5. destruct par as [e0|]; [|assumption]. destruct bc_flag0 as (x & r & sk & G1 & G2 & G3 & G4 & G5).
          destruct En as ((G' & EG) & Hp & Eu).
          exists x, r, sk. split; [assumption|]. split; [assumption|]. split; [|split].
          + intros e' Es. destruct (G3 e' Es). split; [apply in_app_iff; now left | assumption].
          + intros Par Es e' He'. apply in_app_iff in He'. destruct He' as [He'|[<-|[]]]; [auto|]. fold c. intro Y.
            apply HcG. right. rewrite EG. left. auto.
          + intros e' He' Hg. rewrite L3u. rewrite L3D by (auto; apply GD1; now right). apply in_app_iff in He'. destruct He' as [He'|[<-|[]]].
            * destruct (G5 e' He' Hg); [left; lia | now right].
            * destruct HcG. now right. }
      assert (binv (u :: G) D1 ((Zc ++ Z1) ++ u :: P) s3) as I3.
      { rewrite <- app_assoc. destruct I1. split; rewrite ?F1, ?F4; try assumption.
        - intros b Hb. destruct (bi_gray0 b (or_intror Hb)) as (Hbd & Hb2). split; [assumption|].
          destruct Hb as [<-|Hb]; [rewrite L3u; lia|]. rewrite L3 by auto. assumption.
        - intros v Lv Hv. rewrite F3, A3; [auto|]. intros ->. apply Hv. rewrite ED1. apply in_app_iff. now right.
        - intros b v Hb Hg Ha. destruct (Nat.eq_dec b c) as [->|n].
          + destruct Ha as (e' & He' & <-). destruct (bp_closed _ _ _ _ _ _ B1 c e' HcX He') as [Hx|Hg'].
            * rewrite ED1. apply in_app_iff. now left.
            * rewrite ED1. apply in_app_iff. right. now apply GD1.
          + apply (bi_closed0 b v); auto. intros [?|?]; [congruence | contradiction].
        - intros e' He'. rewrite F6 in He'. destruct (br_not_root s1 c) eqn:Nc.
          + destruct (bi_out0 e' He') as (Q1 & Q2 & Q3 & Q4). repeat split; try assumption. intro. apply Q4. now right.
          + apply in_app_iff in He'. destruct He' as [He'|[<-|[]]].
            * destruct (bi_out0 e' He') as (Q1 & Q2 & Q3 & Q4). repeat split; try assumption. intro. apply Q4. now right.
            * rewrite E1. repeat split; auto.
        - rewrite F6. destruct (br_not_root s1 c) eqn:Nc; [assumption|]. rewrite map_app. apply NoDup_app_intro; [assumption | repeat constructor; easy |].
          intros i Hi [<-|[]]. apply in_map_iff in Hi. destruct Hi as (e' & Ei & He'). destruct (bi_out0 e' He') as (Q1 & Q2 & Q3 & Q4).
          destruct (mg_ids _ M _ _ _ _ He Q1 (eq_sym Ei)) as [->| ->]; apply Q4; [now left | right; left; cbn; auto]. }
      assert (NoDup D1) as N1 by now apply (proj1 (visit_scan_nodup g) _ _ _ _ H1).
      assert (D1 = (Xc ++ X) ++ D0) as ED1' by now rewrite <- app_assoc.
      assert ((Q ++ [e]) ++ es = out u) as EQ' by (rewrite <- app_assoc; exact EQ).
      destruct (IH2 N1) with (G := G) (Z1 := Zc ++ Z1) (P := P) (s := s3) (par := par) (D0 := D0) (X := Xc ++ X) (Q := Q ++ [e])
        as (Z & I' & B' & K' & R' & S' & E' & Tp' & Rp'); auto.
      + intros v Hv. apply (visit_in _ _ _ _ _ _ H1) in Hv. destruct Hv as [Hv|Hv]; [|auto].
        now apply (visit_lt g (mg_wf _ M) c D t1 D1).
      + apply in_app_iff. now right.
      + intros v Hv. apply in_app_iff in Hv. apply in_app_iff. destruct Hv as [Hv|Hv]; [left; apply -> in_rev; auto | right; auto].
      + intros v Hv. apply in_app_iff in Hv. destruct Hv as [Hv|Hv]; [|auto].
        destruct (br_not_root s1 c) eqn:Nc; [|rewrite (Ec eq_refl) in Hv; easy].
        apply nb_trans with c; [auto|]. rewrite <- E1. apply (nb_step g c c (rev_edge e)); [constructor | now apply (mg_rev _ M) in He |].
        eapply joined_same; [exact M | exact He | eapply (mg_rev _ M); exact He | reflexivity | auto].
      + assert (rev (discovers t2) ++ Xc ++ X = rev (discovers t1 ++ discovers t2) ++ X) as Er.
        { rewrite rev_app_distr, <- app_assoc. reflexivity. }
        rewrite Er in B', S'. exists Z. split; [assumption|]. split; [assumption|]. split; [|split; [assumption | split; [assumption | split; [assumption | split; [congruence | auto]]]]].
        intros v Hv Hvu. destruct (K' v) as (-> & ->); [rewrite ED1; apply in_app_iff; now right | assumption |].
        rewrite L3D, F3, A3 by assumption. split; [reflexivity|]. now apply K1.
  Qed.

  Lemma forest_bridge rs D t D' : forest g rs D t D' -> (forall r, In r rs -> (r < g_n g)%nat) -> NoDup D ->
    (forall v, In v D -> (v < g_n g)%nat) -> times T D' -> forall s, binv [] D [] s ->
    (forall a e, In a D -> In e (out a) -> reported s e \/ joined g e) ->
    binv [] D' [] (run V t s) /\ forall a e, In a D' -> In e (out a) -> reported (run V t s) e \/ joined g e.
  Proof.
    induction 1 as [D|r rs D t D' Hi F IH|r rs D t1 D1 t2 D' Hn H1 H2 IH]; intros Hr N L HT s I Kn;
      [now split | apply IH; auto; intros; apply Hr; now right |].
    set (s0 := v_step V (ESearchStart r) s).
    assert (run V (ESearchStart r :: t1 ++ ESearchFinish (Some r) :: t2) s = run V t2 (run V t1 s0)) as ->.
    { change (run V (t1 ++ ESearchFinish (Some r) :: t2) s0 = run V t2 (run V t1 s0)). now rewrite run_app. }
    assert (times T D1) as HT1 by (destruct (forest_suffix _ _ _ _ _ H2) as (X & ->); now apply times_app in HT).
    assert (binv [] D [] s0) as I0 by (apply (binv_ext _ _ _ s); auto; easy).
    destruct (proj1 visit_scan_bridge r D t1 D1 H1 Hn (Hr r (or_introl eq_refl)) N L HT1 [] [] s0 None [] I0)
      as (Z & I1 & B1 & _ & _ & _ & E1 & _ & Rp); try easy.
    set (s1 := run V t1 s0) in *.
    assert (br_not_root s1 r = false) as Nr.
    { destruct (br_not_root s1 r) eqn:Nr; [|reflexivity]. rewrite (bp_nr _ _ _ _ _ _ B1) in Nr. apply Z.ltb_lt in Nr.
      destruct (bp_sound _ _ _ _ _ _ B1 Nr) as (a & e & _ & _ & [] & _). }
    rewrite (E1 Nr) in I1. cbn [app] in I1.
    assert (In r (rev (discovers t1))) as HrX by (apply -> in_rev; now apply (visit_discovers_root _ _ _ _ _ H1)).
    assert (D1 = rev (discovers t1) ++ D) as ED1 by exact (proj1 (visit_scan_discovers g) _ _ _ _ H1).
    apply IH.
    - intros; apply Hr; now right.
    - now apply (proj1 (visit_scan_nodup g) _ _ _ _ H1).
    - intros v Hv. apply (visit_in _ _ _ _ _ _ H1) in Hv. destruct Hv as [Hv|Hv]; [|auto].
      apply (visit_lt g (mg_wf _ M) r D t1 D1); auto. apply Hr. now left.
    - assumption.
    - destruct I1. split; try assumption; try easy.
      + intros b v Hb _ Ha. destruct (Nat.eq_dec b r) as [->|n].
        * destruct Ha as (e & He & <-). destruct (bp_closed _ _ _ _ _ _ B1 r e HrX He) as [?|[]]. rewrite ED1. apply in_app_iff. now left.
        * apply (bi_closed0 b v); auto. intros [?|[]]. congruence.
      + intros e He. destruct (bi_out0 e He) as (Q1 & Q2 & Q3 & Q4). repeat split; try assumption. easy.
    - intros a e Ha He. rewrite ED1 in Ha. apply in_app_iff in Ha. destruct Ha as [Ha|Ha].
      + destruct (bp_known _ _ _ _ _ _ B1 a e Ha He) as [?|[?|(e0 & ? & _)]]; [now left | now right | discriminate].
      + destruct (Kn a e Ha He) as [R|?]; [left; apply Rp; exact R | now right].
  Qed.
End Bridge.

(** ** is_vertex_discovered is exact *)
Definition bridge_ok (g : graph) (D : list nat) (s : bridge) : Prop :=
  0 <= br_now s /\ (forall v, In v D -> 0 < br_low s v) /\ forall v, (v < g_n g)%nat -> ~ In v D -> br_low s v = 0.
Lemma br_relax_ok g par D s e : bridge_ok g D s -> In (e_src e) D -> In (e_tgt e) D -> bridge_ok g D (br_relax par e s).
Proof.
  intros (H0 & H1 & H2) Hs Ht.
  assert (br_now (br_relax par e s) = br_now s) as En by apply relax_other.
  assert (br_low (br_relax par e s) = br_low s \/ br_low (br_relax par e s) = upd (br_low s) (e_src e) (br_low s (e_tgt e))) as [El|El].
  { unfold br_relax. destruct (br_top s) as [|(p & x) r]; [|destruct (p =? e_tgt e)%nat; [destruct (once par x) as (b & x'); destruct b; [now left|]|]];
      cbv zeta; destruct (br_low s (e_tgt e) <? br_low s (e_src e)); auto. }
  - unfold bridge_ok. rewrite En, El. auto.
  - unfold bridge_ok. rewrite En, El. split; [assumption|]. split.
    + intros v Hv. unfold upd. destruct (v =? e_src e)%nat; auto.
    + intros v Lv Hv. rewrite upd_other; [auto|]. intros ->. contradiction.
Qed.
Lemma bridge_disciplined g par : disciplined g (bridge_visitor par) (bridge_ok g).
Proof.
  assert (forall D s u, bridge_ok g D s -> bridge_ok g (u :: D) (v_step (bridge_visitor par) (EStart u) s)) as A.
  { intros D s u (H0 & H1 & H2). split; [cbn; lia|]. split.
    - intros v [<-|Hv]; cbn; [rewrite upd_same; lia|]. unfold upd. destruct (v =? u)%nat; [lia | auto].
    - intros v Lv Hv. cbn. rewrite upd_other; [|intros ->; apply Hv; now left]. apply H2; [assumption | intro; apply Hv; now right]. }
  split; intros.
  - destruct H as (_ & H1 & H2). cbn. rewrite negb_true_iff, Z.eqb_neq. split.
    + intro X. destruct (in_dec Nat.eq_dec v D); [assumption|]. now destruct X; apply H2.
    + intro X. specialize (H1 v X). lia.
  - now apply A.
  - now apply A.
  - now apply br_relax_ok.
  - cbn [v_step bridge_visitor to_visitor c_step bridge_finder].
    match goal with |- context [br_relax par e ?x] => 
      assert (bridge_ok g D (br_relax par e x)) as B by (apply br_relax_ok; [exact H | assumption | assumption]) end.
    cbv zeta. match goal with |- context [br_not_root ?x (e_tgt e)] => destruct (br_not_root x (e_tgt e)) end; [assumption | exact B].
  - cbn. now destruct (br_not_root s u).
  - assumption.
Qed.

(** ** Results *)
Lemma last_exit g (C : nat -> bool) v w : C v = true -> C w = false -> reach g v w ->
  exists a e, In e (g_out g a) /\ C a = true /\ C (e_tgt e) = false /\ reach_avoid g [a] (e_tgt e) w.
Proof.
  intros Hv Hw R.
  assert (forall w, reach g v w -> C w = true \/ exists a e, In e (g_out g a) /\ C a = true /\ C (e_tgt e) = false /\ reach_avoid g [a] (e_tgt e) w) as H.
  { clear w Hw R. induction 1 as [|x w R IH (e & He & <-)]; [now left|].
    destruct (C (e_tgt e)) eqn:Ce; [now left|]. right. destruct (C x) eqn:Cx.
    - exists x, e. repeat split; auto. apply ra_refl. intros [E|[]]. congruence.
    - destruct IH as [?|(a & e' & He' & Ca & Ce' & Ra)]; [discriminate|]. exists a, e'. repeat split; auto.
      eapply ra_step; [exact Ra | now exists e |]. intros [E|[]]. congruence. }
  destruct (H w R) as [?|X]; [congruence | exact X].
Qed.

Theorem bridges_refine g parallel cm : multigraph g -> (parallel = false -> no_parallel g) ->
  exists k s, (forall f, (k <= f)%nat -> find_bridges parallel f g cm = Ok s) /\
    cs_ub (br_c s) = false /\
    (forall e, In e (br_out s) -> In e (g_out g (e_src e))) /\
    NoDup (map e_id (br_out s)) /\
    (forall u e, (u < g_n g)%nat -> In e (g_out g u) -> In (e_id e) (map e_id (br_out s)) <-> is_bridge g e) /\
    (forall v, (v < g_n g)%nat -> 0 <= cs_map (br_c s) v < cs_n (br_c s)) /\
    (forall v w, (v < g_n g)%nat -> (w < g_n g)%nat ->
       cs_map (br_c s) v = cs_map (br_c s) w <-> two_edge_connected g v w).
Proof.
  intros M Hp. pose proof (mg_wf _ M) as wf.
  assert (forall us s, fold_left (fun s u => v_step (bridge_visitor parallel) (EInit u) s) us s =
    {| br_out := br_out s; br_c := br_c s; br_low := fold_left (fun m u => upd m u 0) us (br_low s); br_not_root := br_not_root s;
       br_now := br_now s; br_top := br_top s |}) as Ei.
  { induction us as [|u us IH]; intros [? ? ? ? ? ?]; [reflexivity|]. cbn [fold_left]. rewrite IH. reflexivity. }
  destruct (dfs_all_run (bridge_visitor parallel) g (bridge_ok g) wf (bridge_disciplined g parallel) (bridge_init cm)) as (t & D' & F & R & k & E).
  { unfold init_all. rewrite Ei. split; [cbn; lia|]. split; [easy|]. cbn. intros v Hv _. apply fold_upd. now apply in_vertices. }
  exists k. eexists. split; [exact E|].
  assert (NoDup D') as ND by (apply (forest_nodup _ _ _ _ _ F); constructor).
  destruct (times_exists D' ND) as (T & HT).
  destruct (forest_bridge g M parallel Hp T (vertices g) [] t D' F) with (s := init_all (bridge_visitor parallel) g (bridge_init cm)) as (I & Kn); try easy.
  { intros r. apply in_vertices. }
  { constructor. }
  { unfold init_all. rewrite Ei. split; cbn; try easy; try (intros; auto); try lia; constructor. }
  set (s := run _ t _) in *.
  assert (forall v, (v < g_n g)%nat -> In v D') as Dv by (intros v Hv; apply (forest_roots _ _ _ _ _ _ F); now apply in_vertices).
  destruct I. split; [assumption|]. split; [intros e He; now apply bi_out0|]. split; [assumption|]. split; [|split; [auto|]].
  - intros u e Hu He. split.
    + intro Hi. apply in_map_iff in Hi. destruct Hi as (e' & Ei' & He'). destruct (bi_out0 e' He') as (Q1 & Q2 & _).
      intro J. apply Q2. eapply joined_same; [exact M | exact He | exact Q1 | now symmetry | exact J].
    + intro B. destruct (Kn u e (Dv u Hu) He) as [?|J]; [assumption | now destruct B].
  - intros v w Hv Hw. split.
    + intro El. apply nb_two; [assumption|]. apply bi_labB0; auto.
    + intro Tw. destruct (Z.eq_dec (cs_map (br_c s) w) (cs_map (br_c s) v)) as [?|n]; [auto|]. exfalso.
      assert (reach g v w) as Rvw.
      { assert (forall i x, reach (without g i) v x -> reach g v x) as Hr.
        { induction 1 as [|x y _ IH (e & He & <-)]; [constructor|]. apply without_in in He. eapply reach_step; [exact IH|]. exists e. tauto. }
        now apply (Hr 0%nat). }
      destruct (last_exit g (fun x => Z.eqb (cs_map (br_c s) x) (cs_map (br_c s) v)) v w) as (a & e & He & Ca & Ce & Ra).
      { apply Z.eqb_refl. } { now apply Z.eqb_neq. } { assumption. }
      apply Z.eqb_eq in Ca. apply Z.eqb_neq in Ce.
      assert (a < g_n g)%nat as La.
      { destruct (wf _ _ (mg_rev _ M _ _ He)) as (_ & X). cbn in X. now rewrite (proj1 (wf _ _ He)) in X. }
      assert (is_bridge g e) as Br.
      { intro J. destruct (bi_labA0 a e) as (_ & _ & El); auto. congruence. }
      pose proof (without_sym g (e_id e) M) as S.
      apply Br. unfold joined. rewrite (proj1 (wf _ _ He)). apply reach_trans with v.
      * apply nb_without; [apply bi_labB0; auto | | assumption].
        intros x e' He' Ei' J'. apply Br. eapply joined_same; [exact M | exact He' | exact He | assumption | exact J'].
      * apply reach_trans with w; [apply Tw|]. apply reach_sym; [assumption|].
        apply (avoid_without g [a] _ _ a e M He); [left; now left | assumption].
Qed.
