(** Claims C97 and C98: edge labels of biconnected components, orders of a depth-first search tree. *)
From Coq Require Import ZArith List Bool PeanoNat Lia Permutation.
From Verif Require Import Outcome GraphModel DfsProofs DfsResults GraphExamples BridgeProofs PropConnect BlockProofs ArticSound BlockForest OrderProofs.
Import ListNotations.

(** * C97: labels of edges *)
Theorem C97_every_edge_labelled g am cm : multigraph g ->
  exists k s, (forall f, k <= f -> find_articulation_points f g am cm = Ok s) /\
    forall u e, u < g_n g -> In e (g_out g u) -> e_tgt e <> u -> (0 <= ap_cmap s (e_id e) < ap_cn s)%Z.
Proof. exact (artic_labels g am cm). Qed.
Print Assumptions C97_every_edge_labelled.

(** Specification: a cycle without repeated vertices and edges. *)
Definition at_ (es : list edge) (i : nat) : edge := nth i es {| e_id := 0; e_src := 0; e_tgt := 0 |}.
Record simple_cycle (g : graph) (es : list edge) : Prop := {
  sc_edges e : In e es -> In e (g_out g (e_src e));
  sc_ids : NoDup (map e_id es);
  sc_sources : NoDup (map e_src es);
  sc_next i : i < length es -> e_tgt (at_ es i) = e_src (at_ es (S i mod length es)) }.
Definition on_common_cycle (g : graph) (i j : nat) : Prop :=
  exists es, simple_cycle g es /\ In i (map e_id es) /\ In j (map e_id es).

Definition g97 := undirected 5 [(0,1);(1,2);(2,0);(2,3);(3,1);(1,4)].
Example C97_case : multigraph g97 /\
  omap (fun s => (map (ap_cmap s) (seq 0 6), ap_cn s)) (find_articulation_points 100 g97 (fun _ => false) (fun _ => 9%Z)) =
    Ok ([1; 1; 1; 0; 0; 0], 2)%Z.
Proof. split; [now apply undirected_multigraph | vm_compute; reflexivity]. Qed.
Lemma at_in es i : i < length es -> In (at_ es i) es.
Proof. intros H. now apply nth_In. Qed.
(** Two edges of a cycle get different labels and an edge on no cycle gets the label of another edge. *)
Theorem C97_biconnected_components_refuted :
  exists g s, multigraph g /\ find_articulation_points 100 g (fun _ => false) (fun _ => 0%Z) = Ok s /\
    (exists i j, on_common_cycle g i j /\ ap_cmap s i <> ap_cmap s j) /\
    (exists u v i j, i <> j /\ In {| e_id := i; e_src := fst u; e_tgt := snd u |} (g_out g (fst u)) /\
       In {| e_id := j; e_src := fst v; e_tgt := snd v |} (g_out g (fst v)) /\
       ~ on_common_cycle g i j /\ ap_cmap s i = ap_cmap s j).
Proof.
  exists g97. eexists. split; [now apply undirected_multigraph|]. split; [vm_compute; reflexivity|]. split.
  - exists 1, 3. split; [|vm_compute; discriminate].
    exists [{| e_id := 1; e_src := 1; e_tgt := 2 |}; {| e_id := 3; e_src := 2; e_tgt := 3 |}; {| e_id := 4; e_src := 3; e_tgt := 1 |}].
    split; [|cbn; auto]. split.
    + intros e He. cbn in He. intuition (subst; cbn; auto 10).
    + cbn. repeat constructor; cbn; lia.
    + cbn. repeat constructor; cbn; lia.
    + intros i Hi. cbn in Hi. do 3 (destruct i as [|i]; [reflexivity|]). lia.
  - exists (2, 3), (1, 4), 3, 5. split; [lia|]. split; [cbn; auto|]. split; [cbn; auto 10|]. split; [|vm_compute; reflexivity].
    intros (es & [A B C D] & _ & H5). apply in_map_iff in H5. destruct H5 as (e & E5 & He).
    destruct (In_nth es e {| e_id := 0; e_src := 0; e_tgt := 0 |} He) as (i & Hi & Ei). fold (at_ es i) in Ei.
    set (n := length es) in *. assert (Hn : n <> 0) by lia.
    assert (X : forall x, In x es -> (e_src x = 4 -> x = {| e_id := 5; e_src := 4; e_tgt := 1 |}) /\ (e_tgt x = 4 -> x = {| e_id := 5; e_src := 1; e_tgt := 4 |})
      /\ (e_id x = 5 -> x = {| e_id := 5; e_src := 4; e_tgt := 1 |} \/ x = {| e_id := 5; e_src := 1; e_tgt := 4 |})).
    { intros x Hx. apply A in Hx. destruct x as [a b c]. cbn in Hx |- *. do 5 (destruct b as [|b]; [cbn in Hx; intuition (try congruence)|]). cbn in Hx. contradiction. }
    assert (U : forall x y, In x es -> In y es -> e_id x = 5 -> e_id y = 5 -> x = y).
    { intros x y Hx Hy Ex Ey. rewrite (NoDup_nth _ 0) in B. rewrite map_length in B. fold n in B.
      destruct (In_nth es x {| e_id := 0; e_src := 0; e_tgt := 0 |} Hx) as (a & Ha & Qa).
      destruct (In_nth es y {| e_id := 0; e_src := 0; e_tgt := 0 |} Hy) as (b & Hb & Qb).
      rewrite <- Qa, <- Qb. f_equal. apply B; auto.
      change 0 with (e_id {| e_id := 0; e_src := 0; e_tgt := 0 |}). rewrite !map_nth, Qa, Qb. congruence. }
    destruct (X e He) as (_ & _ & X3). destruct (X3 E5) as [Ee|Ee].
    + (* predecessor *) set (j := (i + n - 1) mod n). assert (Hj : j < n) by now apply Nat.mod_upper_bound.
      assert (Sj : S j mod n = i).
      { unfold j. replace (S ((i + n - 1) mod n)) with (1 + (i + n - 1) mod n) by lia. rewrite Nat.add_mod_idemp_r by lia.
        replace (1 + (i + n - 1)) with (i + 1 * n) by lia. rewrite Nat.mod_add by lia. now apply Nat.mod_small. }
      pose proof (D j Hj) as Q. rewrite Sj, Ei, Ee in Q. cbn in Q. pose proof (at_in es j Hj) as Ij. destruct (X _ Ij) as (_ & X2 & _).
      specialize (X2 Q). assert (K : at_ es j = e) by (apply U; auto; now rewrite X2). rewrite X2, Ee in K. discriminate.
    + pose proof (D i Hi) as Q. rewrite Ei, Ee in Q. cbn in Q. set (j := S i mod n) in *.
      assert (Hj : j < n) by now apply Nat.mod_upper_bound. pose proof (at_in es j Hj) as Ij. destruct (X _ Ij) as (X1 & _ & _).
      specialize (X1 (eq_sym Q)). assert (K : at_ es j = e) by (apply U; auto; now rewrite X1). rewrite X1, Ee in K. discriminate.
Qed.
Print Assumptions C97_biconnected_components_refuted.

Lemma cycle_walk (g : graph) a : forall es, (forall e, In e es -> In e (g_out g (e_src e))) ->
  (forall i, S i < length es -> e_tgt (at_ es i) = e_src (at_ es (S i))) -> es <> [] -> e_tgt (last es a) = e_src (hd a es) ->
  walk g (map e_src es) /\ arc g (last (map e_src es) 0) (hd 0 (map e_src es)).
Proof.
  assert (forall es, (forall e, In e es -> In e (g_out g (e_src e))) -> (forall i, S i < length es -> e_tgt (at_ es i) = e_src (at_ es (S i))) -> walk g (map e_src es)) as W.
  { induction es as [|x es IH]; intros A B; [easy|]. destruct es as [|y es]; [easy|]. split.
    - exists x. split; [apply A; now left|]. apply (B 0). cbn. lia.
    - apply IH; [intros; apply A; now right|]. intros i Hi. apply (B (S i)). cbn [length] in *. lia. }
  intros es A B Hn El. split; [now apply W|]. destruct (exists_last Hn) as (l & x & ->). rewrite last_last in El. rewrite map_app. cbn [map]. rewrite last_last.
  exists x. split; [apply A, in_app_iff; right; now left|]. rewrite El. now destruct l.
Qed.
(** When no cycle has three or more vertices the labels are exactly the biconnected components. *)
Theorem C97_without_larger_cycles g am cm : multigraph g -> thin g ->
  exists k s, (forall f, k <= f -> find_articulation_points f g am cm = Ok s) /\
    forall u v e f, In e (g_out g u) -> In f (g_out g v) -> e_tgt e <> u -> e_tgt f <> v ->
      (ap_cmap s (e_id e) = ap_cmap s (e_id f) <-> e_id e = e_id f \/ on_common_cycle g (e_id e) (e_id f)).
Proof.
  intros M Th. destruct (artic_thin g am cm M Th) as (k & s & E & L). exists k, s. split; [exact E|].
  intros u v e f He Hf Ne Nf. rewrite (L u v) by assumption.
  pose proof (mg_wf g M) as wf. destruct (wf _ _ He) as (Eu & _), (wf _ _ Hf) as (Ev & _). split.
  - intros H. destruct (Nat.eq_dec (e_id e) (e_id f)) as [|N]; [now left|]. right.
    assert (exists f', In f' (g_out g (e_tgt e)) /\ e_id f' = e_id f /\ e_src f' = e_tgt e /\ e_tgt f' = u) as (f' & Hf' & If & Sf & Tf).
    { destruct H as [(<- & Et)|(Et & ->)].
      - exists (rev_edge f). rewrite Et. split; [now apply (mg_rev g M u)|]. cbn. auto.
      - exists f. auto. }
    exists [e; f']. split; [|cbn; auto]. split.
    + intros x [<-|[<-|[]]]; [now rewrite Eu | now rewrite Sf].
    + cbn. rewrite If. repeat constructor; cbn; [|easy]. intros [?|[]]; congruence.
    + cbn. rewrite Eu, Sf. repeat constructor; cbn; [|easy]. intros [?|[]]; congruence.
    + intros i Hi. cbn in Hi. destruct i as [|[|i]]; [cbn; congruence | cbn; congruence | lia].
  - assert (forall a, In a (g_out g (e_src a)) -> e_id a = e_id e -> a = e \/ a = rev_edge e) as Ae.
    { intros a Ha Ia. now apply (mg_ids g M u (e_src a)). }
    assert (forall a, In a (g_out g (e_src a)) -> e_id a = e_id f -> a = f \/ a = rev_edge f) as Af.
    { intros a Ha Ia. now apply (mg_ids g M v (e_src a)). }
    intros [Ei|(es & [A B C D] & I1 & I2)].
    + destruct (Af e) as [->| ->]; [now rewrite Eu | assumption | left; split; congruence |]. right. cbn in Eu. cbn. now rewrite Ev, Eu.
    + apply in_map_iff in I1 as (x & Ix & Hx). apply in_map_iff in I2 as (y & Iy & Hy).
      assert (forall a b, In a es -> In b es -> e_id e = e_id a -> e_id f = e_id b ->
        (e_src a = e_src b /\ e_tgt a = e_tgt b) \/ (e_src a = e_tgt b /\ e_src b = e_tgt a) -> (u = v /\ e_tgt e = e_tgt f) \/ (u = e_tgt f /\ v = e_tgt e)) as K.
      { intros a b Ha Hb Ia Ib H. destruct (Ae a) as [->| ->]; auto; destruct (Af b) as [->| ->]; auto; cbn in H; rewrite Eu, Ev in H; intuition. }
      destruct es as [|a [|b [|c es]]].
      * contradiction.
      * destruct Hx as [<-|[]], Hy as [<-|[]]. apply (K a a); auto; now left.
      * pose proof (D 0 ltac:(cbn; lia)) as D0. pose proof (D 1 ltac:(cbn; lia)) as D1. cbn in D0, D1.
        apply (K x y); auto. destruct Hx as [<-|[<-|[]]], Hy as [<-|[<-|[]]]; auto.
      * exfalso. set (l := a :: b :: c :: es) in *. destruct (cycle_walk g a l A) as (W & Q).
        -- intros i Hi. rewrite (D i) by lia. now rewrite Nat.mod_small by lia.
        -- discriminate.
        -- assert (last l a = at_ l (length l - 1)) as ->.
           { unfold at_. assert (forall (z : list edge) d d', z <> [] -> last z d = nth (length z - 1) z d') as Ln.
             { induction z as [|z0 z IH]; intros d d' Hz; [easy|]. destruct z as [|z1 z]; [reflexivity|]. change (last (z1 :: z) d = nth (S (length z)) (z0 :: z1 :: z) d').
               rewrite (IH d d') by easy. replace (length (z1 :: z) - 1) with (length z) by (cbn; lia). reflexivity. }
             now apply Ln. }
           rewrite (D (length l - 1)) by (cbn; lia). replace (S (length l - 1)) with (length l) by (cbn; lia). rewrite Nat.mod_same by (cbn; lia). reflexivity.
        -- apply (Th (map e_src l)); auto. cbn. lia.
Qed.
Print Assumptions C97_without_larger_cycles.
(** Two pairs of parallel edges and a pendant edge. *)
Definition g97p := undirected 4 [(0,1);(1,0);(1,2);(2,1);(1,3)].
Lemma four_arc es u v : (forall u, 4 <= u -> g_out (undirected 4 es) u = []) ->
  arc (undirected 4 es) u v <-> u < 4 /\ existsb (fun e => e_tgt e =? v) (g_out (undirected 4 es) u) = true.
Proof.
  intros E. split.
  - intros (e & He & <-). split; [|apply existsb_exists; exists e; split; [assumption | apply Nat.eqb_refl]].
    destruct (Nat.lt_ge_cases u 4) as [|Hu]; [assumption|]. rewrite (E u Hu) in He. contradiction.
  - intros (_ & H). apply existsb_exists in H as (e & He & Q). apply Nat.eqb_eq in Q. now exists e.
Qed.
Lemma walk_four g : (forall u v, arc g u v -> u < 4) -> forall l, NoDup l -> walk g l -> arc g (last l 0) (hd 0 l) -> length l <= 4 /\ forall x, In x l -> x < 4.
Proof.
  intros A l N W Q. assert (forall l, walk g l -> forall x, In x l -> x < 4 \/ x = last l 0) as Wl.
  { induction l0 as [|x l0 IH]; intros Wk y Hy; [easy|]. destruct l0 as [|z l0]; [destruct Hy as [<-|[]]; now right|].
    destruct Wk as (Ax & Wk). destruct Hy as [<-|Hy]; [left; now apply A in Ax|]. apply (IH Wk y Hy). }
  assert (forall x, In x l -> x < 4) as I4 by (intros x Hx; apply A in Q; destruct (Wl l W x Hx) as [?| ->]; lia).
  split; [|exact I4]. change 4 with (length (seq 0 4)). apply NoDup_incl_length; [assumption|]. intros x Hx. apply in_seq. apply I4 in Hx. lia.
Qed.
Lemma g97p_arc u v : arc g97p u v <-> u < 4 /\ existsb (fun e => e_tgt e =? v) (g_out g97p u) = true.
Proof. apply four_arc. intros x Hx. do 4 (destruct x as [|x]; [lia|]). reflexivity. Qed.
Example C97_thin_case : multigraph g97p /\ thin g97p /\
  omap (fun s => (map (ap_cmap s) (seq 0 5), ap_cn s)) (find_articulation_points 100 g97p (fun _ => false) (fun _ => 9%Z)) = Ok ([2;2;0;0;1]%Z, 3%Z).
Proof.
  split; [now apply undirected_multigraph|]. split; [|vm_compute; reflexivity]. intros l N L W Q.
  destruct (walk_four g97p) with (l := l) as (Len & _); auto; [intros u v Ha; now apply g97p_arc in Ha|].
  destruct l as [|a [|b [|c [|d [|e l]]]]]; cbn [length] in L, Len; try lia.
  - destruct W as (W1 & W2 & _). cbn [last hd] in Q. apply g97p_arc in W1 as (A1 & W1), W2 as (A2 & W2), Q as (A3 & Q).
    assert (a <> b /\ a <> c /\ b <> c) as Ne by (inversion_clear N as [|? ? Na N1]; inversion_clear N1 as [|? ? Nb _]; cbn in Na, Nb; intuition).
    clear N. do 4 (destruct a as [|a]; [do 4 (destruct b as [|b]; [do 4 (destruct c as [|c]; [first [discriminate | lia]|]); lia|]); lia|]). lia.
  - destruct W as (W1 & W2 & W3 & _). cbn [last hd] in Q. apply g97p_arc in W1 as (A1 & W1), W2 as (A2 & W2), W3 as (A3 & W3), Q as (A4 & Q).
    assert (a <> b /\ a <> c /\ a <> d /\ b <> c /\ b <> d /\ c <> d) as Ne.
    { inversion_clear N as [|? ? Na N1]; inversion_clear N1 as [|? ? Nb N2]; inversion_clear N2 as [|? ? Nc _]; cbn in Na, Nb, Nc; intuition. }
    clear N. do 4 (destruct a as [|a]; [do 4 (destruct b as [|b]; [do 4 (destruct c as [|c]; [do 4 (destruct d as [|d]; [first [discriminate | lia]|]); lia|]); lia|]); lia|]). lia.
Qed.
(** Triangles are enough for wrong labels: here the edges of a triangle with one more edge at a corner. *)
Definition g97t := undirected 4 [(0,1);(0,2);(1,2);(1,3)].
Lemma g97t_arc u v : arc g97t u v <-> u < 4 /\ existsb (fun e => e_tgt e =? v) (g_out g97t u) = true.
Proof. apply four_arc. intros x Hx. do 4 (destruct x as [|x]; [lia|]). reflexivity. Qed.
Theorem C97_triangle_refuted :
  exists g s, multigraph g /\ (forall l, ~ long_cycle g l) /\ find_articulation_points 100 g (fun _ => false) (fun _ => 0%Z) = Ok s /\
    exists i j, on_common_cycle g i j /\ ap_cmap s i <> ap_cmap s j.
Proof.
  exists g97t. eexists. split; [now apply undirected_multigraph|]. split; [|split; [vm_compute; reflexivity|]].
  - intros l (N & L4 & W & Q).
    destruct (walk_four g97t) with (l := l) as (Len & _); auto; [intros u v Ha; now apply g97t_arc in Ha|].
    destruct l as [|a [|b [|c [|d [|e l]]]]]; cbn [length] in L4, Len; try lia.
    destruct W as (W1 & W2 & W3 & _). cbn [last hd] in Q. apply g97t_arc in W1 as (A1 & W1), W2 as (A2 & W2), W3 as (A3 & W3), Q as (A4 & Q).
    assert (a <> b /\ a <> c /\ a <> d /\ b <> c /\ b <> d /\ c <> d) as Ne.
    { inversion_clear N as [|? ? Na N1]; inversion_clear N1 as [|? ? Nb N2]; inversion_clear N2 as [|? ? Nc _]; cbn in Na, Nb, Nc; intuition. }
    clear N. do 4 (destruct a as [|a]; [do 4 (destruct b as [|b]; [do 4 (destruct c as [|c]; [do 4 (destruct d as [|d]; [first [discriminate | lia]|]); lia|]); lia|]); lia|]). lia.
  - exists 0, 2. split; [|vm_compute; discriminate].
    exists [{| e_id := 0; e_src := 0; e_tgt := 1 |}; {| e_id := 2; e_src := 1; e_tgt := 2 |}; {| e_id := 1; e_src := 2; e_tgt := 0 |}].
    split; [|cbn; auto]. split.
    + intros e He. cbn in He. intuition (subst; cbn; auto 10).
    + cbn. repeat constructor; cbn; lia.
    + cbn. repeat constructor; cbn; lia.
    + intros i Hi. cbn in Hi. do 3 (destruct i as [|i]; [reflexivity|]). lia.
Qed.
Print Assumptions C97_triangle_refuted.

(** * C98: preorder, postorder and inorder *)
Theorem C98_orders_of_search_tree g s : wf_graph g -> s < g_n g ->
  exists t, root t = s /\ tree_arcs g t /\ NoDup (pre t) /\ (forall v, In v (pre t) <-> reach g s v) /\
    forall m m', exists k, forall f, k <= f ->
      preorder f g m s = Ok (pre t) /\ postorder f g m s = Ok (post t) /\ inorder true f g m' s = Ok (ino t).
Proof. intros wf Hs. destruct (orders_ok g s wf Hs) as (t & A & B & C & D & E & _). eauto 8. Qed.
Print Assumptions C98_orders_of_search_tree.
(** A graph that is a tree is written in the usual orders. *)
Theorem C98_orders_of_tree g t m m' : wf_graph g -> represents g t -> NoDup (pre t) -> root t < g_n g ->
  exists k, forall f, k <= f ->
    preorder f g m (root t) = Ok (pre t) /\ postorder f g m (root t) = Ok (post t) /\ inorder true f g m' (root t) = Ok (ino t).
Proof.
  intros wf R N L. destruct (orders_ok g _ wf L) as (t' & _ & _ & _ & _ & E & F).
  rewrite (F t R eq_refl N) in E. apply E.
Qed.
Print Assumptions C98_orders_of_tree.
(** The number of vertices written. *)
Theorem C98_inorder_length t : let n := length (pre t) in
  n <= length (ino t) /\ (3 <= n -> length (ino t) <= 2 * n - 3) /\
  (forall v, In v (ino t) <-> In v (pre t)) /\ (binary t -> Permutation (ino t) (pre t)).
Proof.
  cbv zeta. pose proof (ino_max t). split; [apply ino_min|]. split; [lia|]. split; [intros v; apply ino_in | apply ino_binary].
Qed.
Print Assumptions C98_inorder_length.
Definition t98 := Node 0 [Node 1 [Node 3 []; Node 4 []]; Node 2 [Node 5 []]].
Definition g98 := directed 6 [(0,1);(0,2);(1,3);(1,4);(2,5)].
Example C98_case : wf_graph g98 /\ represents g98 t98 /\ NoDup (pre t98) /\ binary t98 /\
  inorder true 50 g98 (fun _ => 0%Z) 0 = Ok [3; 1; 4; 0; 5; 2] /\
  preorder 50 g98 (fun _ => true) 0 = Ok [0; 1; 3; 4; 2; 5] /\ postorder 50 g98 (fun _ => true) 0 = Ok [3; 4; 1; 5; 2; 0].
Proof.
  split; [now apply directed_wf|]. split; [repeat constructor|]. split; [repeat constructor; cbn; lia|].
  split; [repeat constructor|]. repeat split; reflexivity.
Qed.
(** A star has the longest output. *)
Example C98_star : inorder true 50 (undirected 5 [(0,1);(0,2);(0,3);(0,4)]) (fun _ => 0%Z) 0 = Ok [1; 0; 2; 0; 3; 0; 4].
Proof. reflexivity. Qed.
(** Where char is unsigned, inorder writes the first vertex only. *)
Theorem C98_unsigned_char_refuted g m s : wf_graph g -> s < g_n g ->
  exists k, forall f, k <= f -> inorder false f g m s = Ok [s].
Proof. apply inorder_unsigned. Qed.
Print Assumptions C98_unsigned_char_refuted.
