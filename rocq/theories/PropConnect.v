(** Claims C44, C45, C61: strong components, articulation points, bridges. *)
From Coq Require Import ZArith List Bool PeanoNat Lia.
From Verif Require Import Outcome GraphModel DfsProofs DfsResults GraphExamples TarjanProofs BridgeProofs ArticProofs ArticSound TarjanExact.
Import ListNotations.

(** The undirected examples are multigraphs. *)
Lemma number_ids {T} i (l : list T) j x : In (j, x) (number i l) -> i <= j.
Proof. revert i. induction l as [|y l IH]; intros i; [easy|]. intros [[= <- _]|H]; [lia | apply IH in H; lia]. Qed.
Lemma number_unique {T} i (l : list T) j x y : In (j, x) (number i l) -> In (j, y) (number i l) -> x = y.
Proof.
  revert i. induction l as [|z l IH]; intros i; [easy|]. intros [E1|H1] [E2|H2].
  - congruence.
  - injection E1 as <- <-. apply number_ids in H2. lia.
  - injection E2 as <- <-. apply number_ids in H1. lia.
  - eauto.
Qed.
Lemma undirected_in n l u e : In e (g_out (undirected n l) u) <->
  e_src e = u /\ exists a b, In (e_id e, (a, b)) (number 0 l) /\ (a = u /\ e_tgt e = b \/ a <> u /\ b = u /\ e_tgt e = a).
Proof.
  cbn. unfold edges_out. rewrite in_flat_map. split.
  - intros ((i & a & b) & Hi & He). destruct (Nat.eqb_spec a u) as [->|na].
    + destruct He as [<-|[]]. cbn. eauto 8.
    + destruct (Nat.eqb_spec b u) as [->|nb]; [|easy]. destruct He as [<-|[]]. cbn. eauto 10.
  - intros (Es & a & b & Hi & H). exists (e_id e, (a, b)). split; [assumption|]. destruct e as [i s t]. cbn in *. subst s.
    destruct H as [(-> & ->)|(na & -> & ->)]; [rewrite Nat.eqb_refl; now left|].
    apply Nat.eqb_neq in na as ->. rewrite Nat.eqb_refl. now left.
Qed.
Lemma undirected_multigraph n l : pairs_ok n l = true -> multigraph (undirected n l).
Proof.
  intro H. split.
  - now apply undirected_wf.
  - intros u e He. apply undirected_in in He. destruct He as (Es & a & b & Hi & Hc). apply undirected_in. cbn. split; [reflexivity|].
    exists a, b. split; [assumption|]. rewrite Es. destruct Hc as [(-> & ->)|(na & -> & ->)]; [|auto].
    destruct (Nat.eq_dec u b) as [->|]; auto.
  - intros u u' [i s t] [i' s' t'] He He' Ei. cbn in Ei. subst i'. apply undirected_in in He, He'. cbn in *.
    destruct He as (-> & a & b & Hi & Hc). destruct He' as (-> & a' & b' & Hi' & Hc').
    pose proof (number_unique _ _ _ _ _ Hi Hi') as E. injection E as <- <-. unfold rev_edge. cbn.
    destruct Hc as [(-> & ->)|(na & -> & ->)], Hc' as [(-> & ->)|(na' & -> & ->)]; auto.
  - intro u. cbn. unfold edges_out. generalize 0. induction l as [|(a & b) l IH]; intro i; cbn; [constructor|].
    apply andb_true_iff in H. destruct H as (_ & H). specialize (IH H (S i)).
    assert (forall c, NoDup (map e_id (c ++ flat_map (fun '(i, (a, b)) => if a =? u then [{| e_id := i; e_src := u; e_tgt := b |}]
       else if b =? u then [{| e_id := i; e_src := u; e_tgt := a |}] else []) (number (S i) l))) \/ ~ (length c <= 1 /\ forall x, In x c -> e_id x = i)) as A.
    { intros [|x [|y c]]; [now left | | right; cbn; lia]. destruct (Nat.eq_dec (e_id x) i) as [Ei|n0]; [|right; intros (_ & Hx); apply n0, Hx; now left].
      left. cbn. constructor; [|assumption]. rewrite Ei. intro Hin. apply in_map_iff in Hin. destruct Hin as (e & Ee & He).
      apply in_flat_map in He. destruct He as ((j & a' & b') & Hj & He). apply number_ids in Hj.
      destruct (a' =? u); [|destruct (b' =? u); [|easy]]; destruct He as [<-|[]]; cbn in Ee; lia. }
    match goal with |- NoDup (map e_id (?c ++ _)) => destruct (A c) as [?|X]; [assumption|] end.
    destruct X. destruct (a =? u); [|destruct (b =? u)]; cbn; (split; [lia|]); intros x [<-|[]] || intros x []; reflexivity.
Qed.

(** * C44: strong components *)
(** Every vertex gets a label and equal labels mean mutually reachable... *)
Theorem C44_equal_labels_strongly_connected g cm : wf_graph g -> (Z.of_nat (g_n g) < 2 ^ 31 - 1)%Z ->
  exists k s, (forall f, k <= f -> find_strong_components f g cm = Ok s) /\ cs_ub (tj_c s) = false /\
    (forall v, v < g_n g -> (0 <= cs_map (tj_c s) v < cs_n (tj_c s))%Z) /\
    (forall v w, v < g_n g -> w < g_n g -> cs_map (tj_c s) v = cs_map (tj_c s) w -> reach g v w /\ reach g w v).
Proof. intros wf small. destruct (tarjan_refines g cm wf small) as (k & s & E & U & R & L & _). exists k, s. auto. Qed.
Print Assumptions C44_equal_labels_strongly_connected.
Example C44_case : let g := directed 5 [(0,1);(1,2);(2,0);(2,3);(3,4);(4,3)] in
  wf_graph g /\ (Z.of_nat (g_n g) < 2 ^ 31 - 1)%Z /\
  omap (fun s => map (cs_map (tj_c s)) (vertices g)) (find_strong_components 100 g (fun _ => 7%Z)) = Ok [1; 1; 1; 0; 0]%Z.
Proof. split; [now apply directed_wf|]. split; reflexivity. Qed.

(** The outcome is not lost: the stack records every pop of a vertex that it does not hold, and a
    pop of a vertex that it holds takes the vertices down to the first one equal to it. *)
Theorem C44_pop : forall c u,
  (cs_ub (cs_pop c u) = true <-> cs_ub c = true \/ ~ In u (cs_stack c)) /\
  (forall above below, cs_stack c = above ++ u :: below -> ~ In u above ->
     cs_stack (cs_pop c u) = below /\ cs_n (cs_pop c u) = (cs_n c + 1)%Z /\
     forall v, cs_map (cs_pop c u) v = if existsb (Nat.eqb v) (above ++ [u]) then cs_n c else cs_map c v).
Proof.
  intros c u. split.
  - unfold cs_pop. assert (H : forall st m, snd (cs_pop_loop m (cs_n c) st u) = true <-> ~ In u st).
    { induction st as [|x st IH]; intro m; cbn [cs_pop_loop]; [cbn; tauto|].
      destruct (Nat.eqb_spec x u) as [->|N]; [cbn; split; [discriminate|tauto]|]. rewrite IH. cbn. tauto. }
    specialize (H (cs_stack c) (cs_map c)). destruct (cs_pop_loop (cs_map c) (cs_n c) (cs_stack c) u) as [[m st] ub].
    cbn [snd cs_ub] in *. now rewrite orb_true_iff, H.
  - intros above below E N. unfold cs_pop. rewrite E.
    destruct (cs_pop_loop_ok (cs_map c) (cs_n c) above u below N) as (m' & -> & M). cbn. auto.
Qed.
Print Assumptions C44_pop.
Example C44_pop_case : let c := {| cs_map := fun _ => 7%Z; cs_stack := [4; 2; 3; 2]; cs_n := 5%Z; cs_ub := false |} in
  cs_stack c = [4] ++ 2 :: [3; 2] /\ ~ In 2 [4] /\ cs_stack (cs_pop c 2) = [3; 2] /\ cs_ub (cs_pop c 2) = false /\
  cs_ub (cs_pop (cs_pop c 1) 1) = true.
Proof. cbn. repeat split. lia. Qed.

Definition g45 := undirected 6 [(0,1);(1,2);(2,0);(2,3);(3,4);(4,5);(5,3)].
(** Enumeration of walks for the examples. *)
Fixpoint walks (g : graph) (k x : nat) : list (list nat) :=
  match k with O => [[x]] | S k => flat_map (fun e => map (cons x) (walks g k (e_tgt e))) (g_out g x) end.
Lemma walks_ok g x l : walk g (x :: l) -> In (x :: l) (walks g (length l) x).
Proof.
  revert x. induction l as [|y l IH]; intros x W; [now left|]. destruct W as [(e & He & Et) W]. cbn [length walks].
  apply in_flat_map. exists e. split; [exact He|]. rewrite Et. apply in_map. now apply IH.
Qed.
Fixpoint distinct (l : list nat) : bool := match l with [] => true | x :: l => negb (existsb (Nat.eqb x) l) && distinct l end.
Lemma distinct_ok l : NoDup l -> distinct l = true.
Proof.
  induction 1 as [|x l Hx N IH]; [reflexivity|]. cbn. rewrite IH, andb_true_r. apply negb_true_iff. destruct (existsb (Nat.eqb x) l) eqn:E; [|reflexivity].
  apply existsb_exists in E as (y & Hy & E). apply Nat.eqb_eq in E as ->. contradiction.
Qed.
(** The labels are those of the strong components if mutually reachable vertices [a] and [x] are never
    joined by two ways from [a] to [x] with no common vertex inside, unless the second one ends with
    an edge that is present in both directions. *)
Theorem C44_exact g cm : wf_graph g -> (Z.of_nat (g_n g) < 2 ^ 31 - 1)%Z ->
  (forall a x z p q, reach g x a -> walk g (a :: p ++ [x]) -> walk g (a :: q ++ [z; x]) -> NoDup (a :: p ++ q ++ [z; x]) -> arc g x z) ->
  exists k s, (forall f, k <= f -> find_strong_components f g cm = Ok s) /\
    (forall v w, v < g_n g -> w < g_n g -> cs_map (tj_c s) v = cs_map (tj_c s) w <-> reach g v w /\ reach g w v) /\
    (forall v w, v < g_n g -> reach g v w -> (cs_map (tj_c s) w <= cs_map (tj_c s) v)%Z).
Proof.
  intros wf small Nt. destruct (tarjan_refines g cm wf small) as (k & s & E & _ & _ & L & A & X). exists k, s. split; [exact E|].
  assert (no_theta g) as Th by (intros a x z p q (? & ? & ? & ?); eauto). split.
  - intros v w Hv Hw. split; [now apply L|]. intros []. now apply X.
  - intros v w Hv. induction 1 as [|x w R IH Ar]; [lia|]. assert (x < g_n g) as Hx by now apply (reach_lt g v x).
    destruct (A x w Hx Ar) as [B|B]; [|lia]. rewrite (X Th w x); auto; [|now apply reach_arc]. apply (reach_lt g x w); auto. now apply reach_arc.
Qed.
Print Assumptions C44_exact.
(** For example if the edges are present in both directions... *)
Theorem C44_symmetric g cm : wf_graph g -> (Z.of_nat (g_n g) < 2 ^ 31 - 1)%Z -> symmetric g ->
  exists k s, (forall f, k <= f -> find_strong_components f g cm = Ok s) /\
    forall v w, v < g_n g -> w < g_n g -> cs_map (tj_c s) v = cs_map (tj_c s) w <-> reach g v w.
Proof.
  intros wf small Sy. destruct (C44_exact g cm wf small) as (k & s & E & X & _).
  - intros a x z p q _ _ W _. apply Sy. clear - W. change (walk g ((a :: q) ++ [z; x])) in W. induction (a :: q) as [|y l IH]; [apply W|].
    apply IH. destruct l; apply W.
  - exists k, s. split; [exact E|]. intros v w Hv Hw. rewrite (X v w Hv Hw). split; [tauto|]. intro R. split; [exact R | now apply reach_sym].
Qed.
Print Assumptions C44_symmetric.
Example C44_symmetric_case : wf_graph g45 /\ (Z.of_nat (g_n g45) < 2 ^ 31 - 1)%Z /\ symmetric g45.
Proof. split; [now apply undirected_wf|]. split; [reflexivity | apply undirected_symmetric]. Qed.
(** ... or if there is at most one way between mutually reachable vertices. *)
Theorem C44_unique_paths g cm : wf_graph g -> (Z.of_nat (g_n g) < 2 ^ 31 - 1)%Z ->
  (forall a x p q, reach g x a -> walk g (a :: p ++ [x]) -> NoDup (a :: p ++ [x]) -> walk g (a :: q ++ [x]) -> NoDup (a :: q ++ [x]) -> p = q) ->
  exists k s, (forall f, k <= f -> find_strong_components f g cm = Ok s) /\
    forall v w, v < g_n g -> w < g_n g -> cs_map (tj_c s) v = cs_map (tj_c s) w <-> reach g v w /\ reach g w v.
Proof.
  intros wf small U. destruct (C44_exact g cm wf small) as (k & s & E & X & _); [|exists k, s; now split].
  intros a x z p q R W1 W2 N. exfalso. inversion_clear N as [|? ? Na N'].
  assert (forall y, In y p -> ~ In y (q ++ [z; x])) as Dj.
  { clear - N'. induction p as [|b p IH]; [easy|]. cbn in N'. inversion_clear N' as [|? ? Nb Np]. rewrite in_app_iff in Nb. intros y [<-|Hy]; [tauto | now apply IH]. }
  assert (NoDup (q ++ [z; x])) as Nq by (clear - N'; induction p; [assumption|]; inversion N'; auto).
  rewrite !in_app_iff in Na. cbn in Na.
  assert (p = q ++ [z]) as Ep.
  { apply (U a x); auto.
    - constructor; [rewrite in_app_iff; cbn; tauto|]. apply NoDup_app_intro; [|repeat constructor; easy|].
      + now apply NoDup_prefix in N'.
      + intros y Hy [<-|[]]. apply (Dj x Hy), in_app_iff. right. right. now left.
    - now rewrite <- app_assoc.
    - rewrite <- app_assoc. cbn [app]. constructor; [rewrite in_app_iff; cbn; tauto | assumption]. }
  apply (Dj z); [rewrite Ep; apply in_app_iff; right; now left | apply in_app_iff; right; now left].
Qed.
Print Assumptions C44_unique_paths.
Lemma walk_lt g x l : wf_graph g -> walk g (x :: l) -> forall y, In y l -> y < g_n g.
Proof.
  intros wf. revert x. induction l as [|z l IH]; intros x W; [easy|]. destruct W as [(e & He & Et) W]. intros y [<-|Hy]; [rewrite <- Et; now apply (wf _ _ He)|].
  now apply (IH z).
Qed.
Example C44_unique_case : let g := directed 5 [(0,1);(1,2);(2,0);(2,3);(3,4);(4,3)] in
  forall a x p q, reach g x a -> walk g (a :: p ++ [x]) -> NoDup (a :: p ++ [x]) -> walk g (a :: q ++ [x]) -> NoDup (a :: q ++ [x]) -> p = q.
Proof.
  intros g a x p q _ W1 N1 W2 N2. assert (wf_graph g) as wf by now apply directed_wf.
  assert (a < 5) as La.
  { assert (exists y l, p ++ [x] = y :: l) as (y & l & E) by (destruct p; cbn; eauto). rewrite E in W1. destruct W1 as [(e & He & _) _].
    do 5 (destruct a as [|a]; [lia|]). now destruct a. }
  assert (forall l, walk g (a :: l) -> NoDup (a :: l) -> length l < 5) as Ll.
  { intros l W N. change (length (a :: l) <= 5). rewrite <- (seq_length 5 0). apply NoDup_incl_length; [exact N|].
    intros y [<-|Hy]; apply in_seq; [lia|]. pose proof (walk_lt _ _ _ wf W y Hy). cbn in *. lia. }
  assert (forallb (fun a => let ls := flat_map (fun k => walks g k a) (seq 0 5) in
    forallb (fun l1 => forallb (fun l2 => negb (distinct l1 && distinct l2 && Nat.eqb (last l1 0) (last l2 0)) ||
      if list_eq_dec Nat.eq_dec l1 l2 then true else false) ls) ls) (seq 0 5) = true) as Q by (vm_compute; reflexivity).
  rewrite forallb_forall in Q. specialize (Q a). cbv zeta in Q. rewrite forallb_forall in Q.
  assert (forall l, walk g (a :: l) -> NoDup (a :: l) -> In (a :: l) (flat_map (fun k => walks g k a) (seq 0 5))) as Ii.
  { intros l W N. apply in_flat_map. exists (length l). split; [apply in_seq; pose proof (Ll l W N); lia | now apply walks_ok]. }
  specialize (Q ltac:(apply in_seq; lia) _ (Ii _ W1 N1)). rewrite forallb_forall in Q. specialize (Q _ (Ii _ W2 N2)).
  rewrite (distinct_ok _ N1), (distinct_ok _ N2) in Q.
  assert (forall l, last (a :: l ++ [x]) 0 = x) as El by (intros l; change (last ((a :: l) ++ [x]) 0 = x); apply last_last).
  rewrite !El, Nat.eqb_refl in Q. cbn [andb negb orb] in Q. destruct (list_eq_dec Nat.eq_dec (a :: p ++ [x]) (a :: q ++ [x])) as [E|]; [|discriminate].
  injection E as E. now apply app_inj_tail in E.
Qed.
(** In all graphs the label does not grow along an arc that cannot be walked back... *)
Theorem C44_arc_order g cm : wf_graph g -> (Z.of_nat (g_n g) < 2 ^ 31 - 1)%Z ->
  exists k s, (forall f, k <= f -> find_strong_components f g cm = Ok s) /\
    forall v w, v < g_n g -> arc g v w -> ~ reach g w v -> (cs_map (tj_c s) w < cs_map (tj_c s) v)%Z.
Proof.
  intros wf small. destruct (tarjan_refines g cm wf small) as (k & s & E & _ & _ & L & A & _). exists k, s. split; [exact E|].
  intros v w Hv Ar Nr. destruct (A v w Hv Ar) as [?|B]; [contradiction|].
  assert (w < g_n g) as Hw by (apply (reach_lt g v w); auto; now apply reach_arc).
  destruct (Z.eq_dec (cs_map (tj_c s) w) (cs_map (tj_c s) v)) as [Ew|]; [|lia]. now destruct Nr, (L w v Hw Hv Ew).
Qed.
Print Assumptions C44_arc_order.
Lemma closed_reach g (S : nat -> bool) v w : (forall x, x < g_n g -> S x = true -> forallb (fun e => S (e_tgt e)) (g_out g x) = true) ->
  wf_graph g -> v < g_n g -> S v = true -> reach g v w -> S w = true.
Proof.
  intros C wf Hv Sv. induction 1 as [|x w R IH (e & He & <-)]; [exact Sv|]. specialize (C x (reach_lt g v x wf Hv R) IH).
  rewrite forallb_forall in C. now apply C.
Qed.
(** ... but can grow along a way of several arcs. *)
Theorem C44_order_refuted :
  exists g v w, wf_graph g /\ v < g_n g /\ reach g v w /\ ~ reach g w v /\
    exists s, find_strong_components 30 g (fun _ => 0%Z) = Ok s /\ (cs_map (tj_c s) v < cs_map (tj_c s) w)%Z.
Proof.
  set (g := directed 5 [(0,1);(0,4);(1,2);(1,3);(2,0);(3,2)]). exists g, 3, 4. assert (wf_graph g) as wf by now apply directed_wf.
  split; [exact wf|]. split; [cbn; lia|]. split; [|split].
  - apply reach_trans with 0; [apply reach_trans with 2|]; apply reach_arc.
    + now exists {| e_id := 5; e_src := 3; e_tgt := 2 |}; split; [left|].
    + now exists {| e_id := 4; e_src := 2; e_tgt := 0 |}; split; [left|].
    + now exists {| e_id := 1; e_src := 0; e_tgt := 4 |}; split; [right; left|].
  - intro R. assert (Nat.eqb 3 4 = true) as X; [|discriminate]. apply (closed_reach g (fun x => Nat.eqb x 4) 4 3); auto.
    intros x _ Ex. apply Nat.eqb_eq in Ex as ->. reflexivity.
  - eexists. split; [reflexivity|]. reflexivity.
Qed.
Print Assumptions C44_order_refuted.

(** ... but mutually reachable vertices can get different labels. *)
Theorem C44_strong_components_refuted :
  exists g, wf_graph g /\ (forall v w, v < g_n g -> w < g_n g -> reach g v w) /\
    exists s, find_strong_components 20 g (fun _ => 0%Z) = Ok s /\ cs_map (tj_c s) 3 <> cs_map (tj_c s) 0.
Proof.
  set (g := directed 4 [(0,1);(1,2);(1,3);(2,0);(3,2)]). exists g. split; [now apply directed_wf|]. split.
  - assert (forall v w, arc g v w -> reach g v w) as A by (intros; now apply reach_arc).
    assert (reach g 0 1) by (apply A; now exists {| e_id := 0; e_src := 0; e_tgt := 1 |}; split; [left|]).
    assert (reach g 1 2) by (apply A; now exists {| e_id := 1; e_src := 1; e_tgt := 2 |}; split; [left|]).
    assert (reach g 1 3) by (apply A; now exists {| e_id := 2; e_src := 1; e_tgt := 3 |}; split; [right; left|]).
    assert (reach g 2 0) by (apply A; now exists {| e_id := 3; e_src := 2; e_tgt := 0 |}; split; [left|]).
    assert (reach g 3 2) by (apply A; now exists {| e_id := 4; e_src := 3; e_tgt := 2 |}; split; [left|]).
    assert (forall v, v < 4 -> reach g v 2 /\ reach g 2 v) as C.
    { intros v Hv. assert (v = 0 \/ v = 1 \/ v = 2 \/ v = 3) as [-> | [-> | [-> | ->]]] by lia;
        (split; eauto using reach_trans, reach_refl). }
    intros v w Hv Hw. apply reach_trans with 2; [now apply C | now apply C].
  - eexists. split; [vm_compute; reflexivity|]. vm_compute. discriminate.
Qed.
Print Assumptions C44_strong_components_refuted.

(** * C45: articulation points *)
(** Every cut vertex is reported... *)
Theorem C45_cut_vertices_reported g am cm : wf_graph g -> symmetric g ->
  exists k s, (forall f, k <= f -> find_articulation_points f g am cm = Ok s) /\
    forall u, u < g_n g -> (exists v w, v <> u /\ w <> u /\ reach g v w /\ ~ reach_avoid g [u] v w) -> ap_map s u = true.
Proof. apply artic_refines. Qed.
Print Assumptions C45_cut_vertices_reported.
Example C45_case : wf_graph g45 /\ symmetric g45 /\ cut_vertex g45 2 /\
  omap (fun s => map (ap_map s) (vertices g45)) (find_articulation_points 100 g45 (fun _ => false) (fun _ => 0%Z)) =
    Ok [false; false; true; true; false; false].
Proof.
  split; [now apply undirected_wf|]. split; [apply undirected_symmetric|]. split; [|reflexivity].
  exists 1, 3. split; [lia|]. split; [lia|]. split.
  - apply reach_trans with 2; apply reach_arc.
    + exists {| e_id := 1; e_src := 1; e_tgt := 2 |}. cbn. auto.
    + exists {| e_id := 3; e_src := 2; e_tgt := 3 |}. cbn. auto.
  - intro R. assert (forall x, reach_avoid g45 [2] 1 x -> x = 0 \/ x = 1) as H.
    { induction 1 as [|v w _ IH (e & He & <-) Hw]; [now right|]. destruct IH as [-> | ->]; cbn in He; intuition (subst; cbn in *; tauto). }
    destruct (H 3 R); discriminate.
Qed.

(** What is reported: cut vertices, and vertices on cycles of at least four vertices that are not the
    first vertex of their component. *)
Theorem C45_reports g am cm : wf_graph g -> symmetric g ->
  exists k s, (forall f, k <= f -> find_articulation_points f g am cm = Ok s) /\
    forall u, ap_map s u = true -> am u = true \/
      (exists v w, v <> u /\ w <> u /\ reach g v w /\ ~ reach_avoid g [u] v w) \/
      ((exists r, r < u /\ reach g r u) /\
       exists l, In u l /\ NoDup l /\ 4 <= length l /\ walk g l /\ arc g (last l 0) (hd 0 l)).
Proof.
  intros wf sym. destruct (artic_sound g am cm wf sym) as (k & s & E & _ & S). exists k, s. split; [exact E|].
  intros u Hu. destruct (S u Hu) as [?|[?|(L & l & (N & Ln & W & A) & I)]]; [now left | right; now left |]. right. right. split; [exact L|].
  exists l. auto.
Qed.
Print Assumptions C45_reports.
(** The first vertex of a component is reported exactly if it is a cut vertex. *)
Theorem C45_first_vertex g cm : wf_graph g -> symmetric g ->
  exists k s, (forall f, k <= f -> find_articulation_points f g (fun _ => false) cm = Ok s) /\
    forall u, u < g_n g -> (forall r, reach g r u -> u <= r) -> ap_map s u = true <-> cut_vertex g u.
Proof.
  intros wf sym. destruct (artic_sound g (fun _ => false) cm wf sym) as (k & s & E & C & S). exists k, s. split; [exact E|].
  intros u Hu L. split; [|now apply C]. intros M. destruct (S u M) as [?|[?|((r & Hr & R) & _)]]; [discriminate | assumption |]. specialize (L r R). lia.
Qed.
Print Assumptions C45_first_vertex.
(** In graphs whose cycles have at most three vertices the result is right. *)
Theorem C45_short_cycles g cm : wf_graph g -> symmetric g -> (forall l, ~ long_cycle g l) ->
  exists k s, (forall f, k <= f -> find_articulation_points f g (fun _ => false) cm = Ok s) /\
    forall u, u < g_n g -> ap_map s u = true <-> cut_vertex g u.
Proof.
  intros wf sym N. destruct (artic_sound g (fun _ => false) cm wf sym) as (k & s & E & C & S). exists k, s. split; [exact E|].
  intros u Hu. split; [|now apply C]. intros M. destruct (S u M) as [?|[?|(_ & l & L & _)]]; [discriminate | assumption |]. now destruct (N l).
Qed.
Print Assumptions C45_short_cycles.
Lemma cycle_lt g l : wf_graph g -> long_cycle g l -> forall x, In x l -> x < g_n g.
Proof.
  intros wf (_ & _ & W & A) x Hx. destruct l as [|y l]; [easy|]. destruct Hx as [<-|Hx]; [destruct A as (e & He & Et); cbn [hd] in Et; rewrite <- Et; now apply (wf _ _ He)|].
  clear A. revert y W Hx. induction l as [|z l IH]; intros y W; [easy|]. destruct W as [(e & He & Et) W]. intros [<-|Hx]; [rewrite <- Et; now apply (wf _ _ He)|].
  now apply (IH z).
Qed.
Example C45_short_case : wf_graph g45 /\ symmetric g45 /\ (forall l, ~ long_cycle g45 l) /\ (forall r, reach g45 r 0 -> 0 <= r).
Proof.
  assert (wf_graph g45) as wf by now apply undirected_wf. split; [exact wf|]. split; [apply undirected_symmetric|]. split; [|lia].
  intros l L. pose proof (cycle_lt _ _ wf L) as Lt. destruct L as (N & Ln & W & A).
  assert (length l <= 6) as L6.
  { rewrite <- (seq_length 6 0). apply NoDup_incl_length; [exact N|]. intros x Hx. apply in_seq. specialize (Lt x Hx). cbn in Lt. lia. }
  destruct l as [|x l]; [cbn in Ln; lia|]. pose proof (walks_ok _ _ _ W) as I.
  assert (forallb (fun x => forallb (fun k => forallb (fun l => negb (distinct l && existsb (fun e => Nat.eqb (e_tgt e) (hd 0 l)) (g_out g45 (last l 0))))
    (walks g45 k x)) [3; 4; 5]) (seq 0 6) = true) as Q by (vm_compute; reflexivity).
  rewrite forallb_forall in Q. specialize (Q x). rewrite forallb_forall in Q.
  assert (In x (seq 0 6)) as Hx by (apply in_seq; specialize (Lt x (or_introl eq_refl)); cbn in Lt; lia).
  specialize (Q Hx (length l)). rewrite forallb_forall in Q.
  assert (In (length l) [3; 4; 5]) as Hk by (cbn [length] in *; cbn; lia).
  specialize (Q Hk _ I). apply negb_true_iff, andb_false_iff in Q as [Q|Q]; [now rewrite (distinct_ok _ N) in Q|].
  destruct A as (e & He & Et). assert (existsb (fun e => Nat.eqb (e_tgt e) (hd 0 (x :: l))) (g_out g45 (last (x :: l) 0)) = true) as Y; [|congruence].
  apply existsb_exists. exists e. split; [exact He|]. now apply Nat.eqb_eq.
Qed.

(** ... but other vertices are reported as well: a vertex of a 4-cycle. *)
Theorem C45_articulation_points_refuted :
  exists g u, wf_graph g /\ symmetric g /\ u < g_n g /\ ~ cut_vertex g u /\
    exists s, find_articulation_points 50 g (fun _ => false) (fun _ => 0%Z) = Ok s /\ ap_map s u = true.
Proof.
  set (g := undirected 4 [(0,1);(1,2);(2,3);(3,0)]). exists g, 1. split; [now apply undirected_wf|].
  split; [apply undirected_symmetric|]. split; [cbn; lia|]. split.
  - apply cut_free_ok; [apply undirected_symmetric|].
    assert (forall x, arc g 1 x -> x = 0 \/ x = 2) as N.
    { intros x (e & He & <-). cbn in He. intuition (subst; cbn; auto). }
    assert (reach_avoid g [1] 0 2) as R.
    { eapply ra_step; [eapply ra_step; [apply ra_refl|..]|..].
      - cbn. lia.
      - exists {| e_id := 3; e_src := 0; e_tgt := 3 |}. cbn. auto.
      - cbn. lia.
      - exists {| e_id := 2; e_src := 3; e_tgt := 2 |}. cbn. auto.
      - cbn. lia. }
    intros x y Hx Hy Hx1 Hy1. destruct (N x Hx) as [-> | ->], (N y Hy) as [-> | ->]; auto.
    + apply ra_refl. cbn. lia.
    + apply reach_avoid_sym; [apply undirected_symmetric | exact R].
    + apply ra_refl. cbn. lia.
  - eexists. split; vm_compute; reflexivity.
Qed.
Print Assumptions C45_articulation_points_refuted.

(** * C61: bridges *)
Theorem C61_bridges g parallel cm : multigraph g -> (parallel = false -> no_parallel g) ->
  exists k s, (forall f, k <= f -> find_bridges parallel f g cm = Ok s) /\
    (forall e, In e (br_out s) -> In e (g_out g (e_src e))) /\
    NoDup (map e_id (br_out s)) /\
    (forall u e, u < g_n g -> In e (g_out g u) ->
       In (e_id e) (map e_id (br_out s)) <-> ~ reach (without g (e_id e)) (e_src e) (e_tgt e)).
Proof. intros M P. destruct (bridges_refine g parallel cm M P) as (k & s & E & _ & A & B & C & _). eauto 8. Qed.
Print Assumptions C61_bridges.
(** The labels of find_two_edge_connected_components. *)
Theorem C61_two_edge_connected_components g parallel cm : multigraph g -> (parallel = false -> no_parallel g) ->
  exists k s, (forall f, k <= f -> find_bridges parallel f g cm = Ok s) /\ cs_ub (br_c s) = false /\
    (forall v, v < g_n g -> (0 <= cs_map (br_c s) v < cs_n (br_c s))%Z) /\
    (forall v w, v < g_n g -> w < g_n g ->
       cs_map (br_c s) v = cs_map (br_c s) w <-> forall i, reach (without g i) v w).
Proof. intros M P. destruct (bridges_refine g parallel cm M P) as (k & s & E & U & _ & _ & _ & D & F). eauto 8. Qed.
Print Assumptions C61_two_edge_connected_components.
Definition g61 := undirected 6 [(0,1);(1,2);(2,0);(2,3);(3,4);(4,3);(4,5)].
Example C61_case : multigraph g61 /\
  omap (fun s => (map e_id (br_out s), map (cs_map (br_c s)) (vertices g61))) (find_bridges true 100 g61 (fun _ => 9%Z)) =
    Ok ([6; 3], [2; 2; 2; 1; 1; 0]%Z).
Proof. split; [now apply undirected_multigraph | reflexivity]. Qed.
Definition g61' := undirected 5 [(0,1);(1,2);(2,0);(2,3);(3,3);(3,4)].
Example C61_case_no_parallel : multigraph g61' /\ no_parallel g61' /\
  omap (fun s => (map e_id (br_out s), map (cs_map (br_c s)) (vertices g61'))) (find_bridges false 100 g61' (fun _ => 9%Z)) =
    Ok ([5; 3], [2; 2; 2; 1; 0]%Z).
Proof.
  split; [now apply undirected_multigraph|]. split; [|reflexivity].
  intros u e e' He He' Et. do 5 (destruct u as [|u]; [cbn in He, He'; intuition (subst; cbn in *; congruence || discriminate)|]).
  cbn in He. easy.
Qed.
(** Without the flag parallel edges are mistaken for bridges. *)
Theorem C61_parallel_edges_need_flag :
  exists g s e, multigraph g /\ find_bridges false 50 g (fun _ => 0%Z) = Ok s /\ In e (br_out s) /\ joined g e.
Proof.
  set (g := undirected 2 [(0,1);(0,1)]). exists g. eexists. exists {| e_id := 0; e_src := 0; e_tgt := 1 |}.
  split; [now apply undirected_multigraph|]. split; [vm_compute; reflexivity|]. split; [vm_compute; auto|].
  unfold joined. apply reach_arc. exists {| e_id := 1; e_src := 0; e_tgt := 1 |}. cbn. auto.
Qed.
Print Assumptions C61_parallel_edges_need_flag.
