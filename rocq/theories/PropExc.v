(** C145: what is left after an exception. *)
From Coq Require Import ZArith List Bool Arith Lia Permutation.
From Verif Require Import Outcome IntTypes ListLemmas MapModel ExcModel ExcProofs ExcGraphProofs AdjModel.
From Verif Require ContainerModel.
Import ListNotations.

(** ** queue_using_stacks *)

(** A queue out of which [l] would be served. A push that throws changes nothing. A top or pop that throws keeps the elements;
    they are served in rotated order; if the first copy throws, in the same order. A top or pop that does not
    throw is about the first element, a push that does not throw is about the last, whatever was thrown before. *)
Theorem C145_queue : forall A (q : queue2 A) l sch, serves q l ->
  (forall x q' sch', epush sch q x = (q', sch', None) -> serves q' l) /\
  (forall x q' sch', epush sch q x = (q', sch', Some tt) -> serves q' (l ++ [x])) /\
  (forall q' sch', etop sch q = Ok (q', sch', None) \/ epop sch q = Ok (q', sch', None) ->
     exists l1 l2, l1 <> [] /\ l = l1 ++ l2 /\ serves q' (l2 ++ l1) /\ (throws sch = true -> l2 = [])) /\
  (forall x q' sch', etop sch q = Ok (q', sch', Some x) -> serves q' l /\ exists t, l = x :: t) /\
  (forall q' sch', epop sch q = Ok (q', sch', Some tt) -> exists x t, l = x :: t /\ serves q' t) /\
  (l = [] -> etop sch q = UB /\ epop sch q = UB) /\ (l <> [] -> exists r1 r2, etop sch q = Ok r1 /\ epop sch q = Ok r2).
Proof.
  intros A q l sch H. apply serves_iff in H. subst l. split; [|split; [|split; [|split; [|split; [|split]]]]].
  - intros x q' sch' E. apply epush_spec in E. subst q'. now apply serves_iff.
  - intros x q' sch' E. apply epush_spec in E. now apply serves_iff.
  - intros q' sch' E. assert (F : exists s, efill sch q = (q', s, None)).
    { unfold etop, epop in E. destruct (efill sch q) as [[q1 s1] [u|]].
      - destruct (ContainerModel.m_out q1); destruct E as [E|E]; discriminate.
      - destruct E as [E|E]; injection E as <- <-; eauto. }
    destruct F as (s & F). destruct (throws sch) eqn:T.
    + pose proof (efill_first _ _ _ _ _ T F) as ->. apply efill_spec in F. destruct F as (l1 & l2 & N & W & _).
      exists (waiting q), []. rewrite app_nil_r. repeat split; auto.
      * rewrite W. destruct l1; [congruence|discriminate].
      * now apply serves_iff.
    + apply efill_spec in F. destruct F as (l1 & l2 & N & W & W'). exists l1, l2. repeat split; auto; [|discriminate]. now apply serves_iff.
  - intros x q' sch' E. apply etop_spec in E. destruct E as [E1 E2]. split; [now apply serves_iff|exact E2].
  - intros q' sch' E. apply epop_spec in E. destruct E as (x & E). exists x, (waiting q'). split; [exact E|]. now apply serves_iff.
  - intros E. rewrite (waiting_nil _ _ E). split; reflexivity.
  - intros N. unfold etop, epop. destruct (efill sch q) as [[q1 s1] r1] eqn:E. destruct r1 as [u|]; [|eauto].
    destruct (ContainerModel.m_out q1) as [|x o] eqn:O; [|eauto]. exfalso. apply N. eapply efill_ready; eassumption.
Qed.
Print Assumptions C145_queue.

(** All histories of a client that catches the exceptions: no element is lost and none is made up. *)
Theorem C145_queue_kept : forall A sch (calls : list (qcall A)) q rs,
  erun sch (ContainerModel.Build_queue2 [] []) calls = Ok (q, rs) ->
  exists l gone, serves q l /\ length gone = removals rs /\ Permutation (pushed rs) (gone ++ l).
Proof.
  intros A sch calls q rs H. apply erun_kept in H. destruct H as (gone & L & P). exists (waiting q), gone.
  split; [now apply serves_iff|]. split; [exact L|]. exact P.
Qed.
Print Assumptions C145_queue_kept.

(** If only pushes throw, it is a queue, all values seen included. *)
Theorem C145_queue_fifo : forall A sch (calls : list (qcall A)) q rs,
  erun sch (ContainerModel.Build_queue2 [] []) calls = Ok (q, rs) ->
  Forall2 (fun c r => r = Threw -> exists x, c = Push x) calls rs ->
  exists l, fifo [] rs l /\ serves q l.
Proof.
  intros A sch calls q rs H F. pose proof (erun_fifo _ _ _ _ _ _ H F) as X. exists (waiting q). split; [exact X|]. now apply serves_iff.
Qed.
Print Assumptions C145_queue_fifo.

(** Finding: of any queue that was filled and not read yet, the last elements are served first if a copy but the first throws. *)
Theorem C145_queue_order_refuted : forall A (l1 l2 : list A), l1 <> [] -> l2 <> [] ->
  let calls := map Push (l1 ++ l2) ++ [Top] in
  let sch := repeat false (length (l1 ++ l2)) ++ repeat false (length l2) ++ [true] in
  exists q, erun sch (ContainerModel.Build_queue2 [] []) calls = Ok (q, map Pushed (l1 ++ l2) ++ [Threw]) /\ serves q (l2 ++ l1).
Proof.
  intros A l1 l2 N1 N2.
  assert (P : forall l ins sch rest, erun (repeat false (length l) ++ sch) (ContainerModel.Build_queue2 ins []) (map Push l ++ rest)
    = do (q, rs) <- erun sch (ContainerModel.Build_queue2 (rev l ++ ins) []) rest; Ok (q, map (@Pushed A) l ++ rs)).
  { induction l as [|x l IH]; intros ins sch rest.
    - cbn [length repeat app map rev]. destruct (erun sch _ rest) as [[q rs]| | | |]; reflexivity.
    - cbn [length repeat app map rev erun]. unfold epush. cbn [throws next tl app ContainerModel.m_in ContainerModel.m_out bind]. rewrite IH, <- app_assoc. cbn [app].
      destruct (erun sch _ rest) as [[q rs]| | | |]; reflexivity. }
  cbn zeta. exists (ContainerModel.Build_queue2 (rev l1) (l2 ++ [])). rewrite P. split.
  - cbn [erun]. unfold etop, efill. cbn [ContainerModel.m_in ContainerModel.m_out]. rewrite app_nil_r, rev_app_distr.
    rewrite <- (rev_length l2), epour_middle.
    + cbn [bind]. rewrite rev_involutive. reflexivity.
    + intros E. apply N1. rewrite <- (rev_involutive l1), E. reflexivity.
  - apply serves_iff. unfold waiting. cbn. rewrite app_nil_r, rev_involutive. reflexivity.
Qed.
Print Assumptions C145_queue_order_refuted.

Example C145_case_queue :
  erun [false; false; false; false; true] (ContainerModel.Build_queue2 [] []) [Push 1; Push 2; Push 3; Top; Top; Pop; Top]
  = Ok (ContainerModel.Build_queue2 [] [1; 2], [Pushed 1; Pushed 2; Pushed 3; Threw; Seen 3; Popped; Seen 1]).
Proof. reflexivity. Qed.
Example C145_case_queue_push :
  exists q, erun [false; true; false] (ContainerModel.Build_queue2 [] []) [Push 1; Push 2; Push 3; Pop; Top] = Ok (q, [Pushed 1; Threw; Pushed 3; Popped; Seen 3]) /\
  Forall2 (fun c r => r = Threw -> exists x, c = Push x) [Push 1; Push 2; Push 3; Pop; Top] [Pushed 1; Threw; Pushed 3; Popped; Seen 3] /\ serves q [3].
Proof. eexists. split; [reflexivity|]. split; [repeat constructor; eauto; discriminate|]. reflexivity. Qed.

(** ** array_as_vector *)

(** While there is room: an exception while the object is made changes nothing; one while it is assigned appends whatever the
    assignment left, and pop_back gives the vector back. *)
Theorem C145_vector : forall A (a : avec A) x w sch, av_len a < length (av_arr a) -> exists a' sch' r, av_emplace sch a x w = Ok (a', sch', r) /\
  match r with
  | Some _ => av_list a' = av_list a ++ [x]
  | None => if throws sch then a' = a else
      av_list a' = av_list a ++ [w] /\ exists b, av_pop a' = Ok b /\ av_list b = av_list a
  end.
Proof.
  intros A [arr n] x w sch L. cbn in L. unfold av_emplace. cbn [av_arr av_len]. destruct (throws sch).
  - do 3 eexists. split; [reflexivity|]. reflexivity.
  - destruct (Nat.ltb_spec n (length arr)); [|lia]. do 3 eexists. split; [reflexivity|]. unfold av_list. cbn [av_arr av_len].
    destruct (throws (next sch)).
    + split; [apply list_set_firstn; exact L|]. unfold av_pop. cbn [av_arr av_len Nat.eqb negb assert_then]. eexists. split; [reflexivity|].
      cbn [av_arr av_len]. rewrite Nat.sub_succ, Nat.sub_0_r. apply list_set_firstn_same.
    + apply list_set_firstn. exact L.
Qed.
Print Assumptions C145_vector.

(** Finding: a push_back that throws makes the vector longer. *)
Theorem C145_vector_refuted : forall A (a : avec A) x w, av_len a < length (av_arr a) -> exists sch a',
  av_emplace sch a x w = Ok (a', [], None) /\ length (av_list a') = S (length (av_list a)).
Proof.
  intros A a x w L. exists [false; true]. destruct (C145_vector A a x w [false; true] L) as (a' & s & r & E & H).
  unfold av_emplace in E. cbn [throws next tl] in E. destruct (av_len a <? length (av_arr a)); [|discriminate].
  injection E as <- <- <-. eexists. split; [unfold av_emplace; cbn [throws next tl]; destruct (Nat.ltb_spec (av_len a) (length (av_arr a))); [reflexivity|lia]|].
  cbn [throws] in H. destruct H as [-> _]. rewrite app_length. cbn. lia.
Qed.
Print Assumptions C145_vector_refuted.

Example C145_case_vector : av_emplace [false; true] (Build_avec [1; 2; 3; 4] 2) 7 0 = Ok (Build_avec [1; 2; 0; 4] 3, [], None) /\ 2 < length [1; 2; 3; 4].
Proof. split; [reflexivity|cbn; lia]. Qed.

(** ** accounting_map *)

(** Nothing throws: the lookup of C58; it has one step if the key is there or no inverse is kept, else two. Not invertible: a lookup
    that throws changes nothing. *)
Theorem C145_accounting : forall K (keq : K -> K -> bool) vt m k,
  eget keq vt true [] m k = (fst (acc_get keq vt m k), [], Some (snd (acc_get keq vt m k))) /\
  (forall sch m' sch', eget keq vt false sch m k = (m', sch', None) -> m' = m) /\
  (forall sch m' sch', throws sch = true -> eget keq vt true sch m k = (m', sch', None) -> m' = m) /\
  (forall invertible sch m' sch' v, eget keq vt invertible sch m k = (m', sch', Some v) ->
     acc_range m' = acc_range (fst (acc_get keq vt m k)) /\ v = snd (acc_get keq vt m k) /\
     acc_inverse m' = (if invertible then acc_inverse (fst (acc_get keq vt m k)) else acc_inverse m) /\
     sch' = skipn (match invertible, a_find keq (acc_range m) k with true, None => 2 | _, _ => 1 end) sch).
Proof.
  intros K keq vt m k. split; [|split; [|split]].
  - unfold eget, acc_get. cbn [throws next tl]. destruct (a_insert keq (acc_range m) k _) as [r i]. rewrite andb_false_r.
    destruct i; reflexivity.
  - intros sch m' sch' H. unfold eget in H. destruct (throws sch); [now injection H|].
    destruct (a_insert keq (acc_range m) k _) as [r i]. cbn [andb] in H. discriminate.
  - intros sch m' sch' T H. unfold eget in H. rewrite T in H. now injection H.
  - intros inv sch m' sch' v H. unfold eget in H. destruct (throws sch); [discriminate|]. unfold acc_get.
    unfold a_insert in *. destruct (a_find keq (acc_range m) k) as [w|] eqn:F.
    + rewrite andb_false_r in H. cbn [andb] in H. injection H as <- <- <-. cbn [fst snd acc_range acc_inverse]. destruct inv; repeat split; try (destruct sch; reflexivity).
    + rewrite andb_true_r in H. destruct inv; cbn [andb] in H.
      * destruct (throws (next sch)); [discriminate|]. injection H as <- <- <-. cbn [fst snd acc_range acc_inverse]. repeat split; try (destruct sch as [|? [|]]; reflexivity).
      * injection H as <- <- <-. cbn [fst snd acc_range acc_inverse]. repeat split; try (destruct sch; reflexivity).
Qed.
Print Assumptions C145_accounting.

(** Finding. Invertible: keys [ks] were looked up, the lookup of [k] threw when the inverse was stored, then keys [ls] were
    looked up and nothing threw. Every key has the value it should have, that of [k] included; but from
    that of [k] on, the inverse of a value is the key of the next value, and that of the last value is undefined. *)
Theorem C145_accounting_refuted : forall K (keq : K -> K -> bool) vt ks k ls,
  (forall a b, keq a b = true <-> a = b) -> (0 < bits vt)%Z -> NoDup (ks ++ k :: ls) ->
  (Z.of_nat (length (ks ++ k :: ls)) <= ihigh vt)%Z -> (Z.of_nat (length (ks ++ k :: ls)) <= ihigh size_type)%Z ->
  exists m1, eget keq vt true [false; true] (gets keq vt acc_empty ks) k = (m1, [], None) /\
  let m := gets keq vt m1 ls in
  forall i x, nth_error (ks ++ k :: ls) i = Some x ->
    acc_get keq vt m x = (m, Z.of_nat i) /\
    acc_invert m (Z.of_nat i) = if i <? length ks then Ok x else match nth_error (ks ++ k :: ls) (S i) with Some y => Ok y | None => UB end.
Proof.
  intros K keq vt ks k ls KE B ND LV LS. change (@acc_empty K) with {| acc_range := numbered vt 0 (@nil K); acc_inverse := [] |}.
  assert (ND1 : NoDup ks) by (eapply NoDup_front; exact ND).
  rewrite gets_new by assumption. cbn [app]. rewrite eget_broken; [|assumption|intros X; apply NoDup_remove_2 in ND; apply ND; apply in_or_app; auto].
  eexists. split; [reflexivity|]. assert (E : ks ++ k :: ls = (ks ++ [k]) ++ ls) by (rewrite <- app_assoc; reflexivity).
  rewrite gets_new by (try rewrite <- E; assumption). cbn zeta. intros i x H. rewrite <- E.
  assert (L : i < length (ks ++ k :: ls)) by (apply nth_error_Some; congruence).
  assert (IV : forall t, (0 < bits t)%Z -> (Z.of_nat (length (ks ++ k :: ls)) <= ihigh t)%Z -> wrap t (Z.of_nat i) = Z.of_nat i).
  { intros t Ht Hh. apply wrap_id; [exact Ht|]. unfold in_ity. split; [|lia]. unfold ilow. destruct (sgn t); [|lia].
    pose proof (Z.pow_nonneg 2 (bits t - 1)). lia. }
  split; [rewrite acc_get_old with (j := i) by assumption; rewrite IV by assumption; reflexivity|].
  unfold acc_invert. rewrite IV by (try assumption; reflexivity). cbn [acc_inverse]. rewrite Nat2Z.id.
  rewrite app_length in *. cbn [length] in *. destruct (Nat.ltb_spec i (length ks)) as [I|I].
  - destruct (Z.ltb_spec (Z.of_nat i) (Z.of_nat (length ks + length ls))); [|lia]. rewrite nth_error_app1 in H by exact I. rewrite nth_error_app1 by exact I. rewrite H. reflexivity.
  - rewrite (nth_error_app2 ks (k :: ls)) by lia. replace (S i - length ks) with (S (i - length ks)) by lia. cbn [nth_error].
    rewrite (nth_error_app2 ks ls) by lia. destruct (Z.ltb_spec (Z.of_nat i) (Z.of_nat (length ks + length ls))) as [J|J].
    + reflexivity.
    + assert (Z0 : nth_error ls (i - length ks) = None) by (apply nth_error_None; lia). rewrite Z0. reflexivity.
Qed.
Print Assumptions C145_accounting_refuted.

Example C145_case_accounting :
  let m1 := fst (fst (eget Nat.eqb int32 true [false; true] (gets Nat.eqb int32 acc_empty [10; 20]) 30)) in
  let m := gets Nat.eqb int32 m1 [30; 40] in
  map (fun k => snd (acc_get Nat.eqb int32 m k)) [10; 20; 30; 40] = [0; 1; 2; 3]%Z /\ map (acc_invert m) [0; 1; 2; 3]%Z = [Ok 10; Ok 20; Ok 40; UB] /\
  NoDup ([10; 20] ++ 30 :: [40]) /\ (Z.of_nat (length ([10; 20] ++ 30 :: [40])) <= ihigh int32)%Z.
Proof. cbn zeta. repeat split; [repeat constructor; cbn; intuition discriminate | cbv; discriminate]. Qed.

(** ** Adding edges *)

(** Nothing throws: the operation of C47. *)
Theorem C145_graph_complete : forall c e0 g u v p,
  eadd c e0 [] g u v p = omap (fun x => (fst x, [], Some (snd x))) (try_add_edge c e0 g u v p).
Proof. exact eadd_done. Qed.
Print Assumptions C145_graph_complete.

(** Directed, without an edge container: an edge that could not be added left nothing behind but vertices. *)
Theorem C145_graph_directed : forall c e0 sch g u v p g' sch', c_dir c = Directed -> c_sel c = SelNone ->
  eadd c e0 sch g u v p = Ok (g', sch', None) -> same_edges g g'.
Proof.
  intros c e0 sch g u v p g' sch' D S H. apply eadd_failed in H. unfold second_end, is_undirected, is_bidirectional, sel_none in H.
  rewrite D, S in H. destruct H as [H|[[H _]|[H _]]]; [exact H|discriminate|discriminate].
Qed.
Print Assumptions C145_graph_directed.

(** All kinds of graphs: the edges there were are kept; either nothing but vertices is new, or the list of the first end is one
    longer, and that of the second end is not; then the count of edges can be one more or, with an edge container, as it was. *)
Theorem C145_graph : forall c e0 sch g u v p g' sch', eadd c e0 sch g u v p = Ok (g', sch', None) ->
  same_edges g g' \/
  (forall w l, outs g w = Ok l -> exists l', outs g' w = Ok (l ++ l') /\ length l' = if w =? u then 1 else 0) /\
  (forall w, out_count g' w = out_count g w + if w =? u then 1 else 0) /\ (forall w, in_count g' w = in_count g w) /\
  (edge_count g' = edge_count g /\ c_sel c <> SelNone \/
   edge_count g' = S (edge_count g) /\ (c_dir c = Undirected /\ u <> v \/ c_dir c = Bidirectional)).
Proof.
  intros c e0 sch g u v p g' sch' H. apply eadd_failed in H. pose proof (same_edges_reserve g u v) as SR.
  pose proof (same_edges_counts _ _ SR) as (RO & RI & RE). set (r := reserve_vertices g u v) in *.
  assert (OLD : forall w l, outs g w = Ok l -> outs r w = Ok l).
  { intros w l O. destruct SR as (_ & _ & SR & _). destruct (SR w) as [-> _]; [|exact O].
    destruct (lt_dec w (vertex_count g)) as [X|X]; [exact X|]. destruct (outs_out g w) as [Y _]; [lia|congruence]. }
  assert (LST : forall ue x, outs r u = Ok ue -> (forall w, outs g' w = if w =? u then Ok (ue ++ [x]) else outs r w) ->
    (forall w l, outs g w = Ok l -> exists l', outs g' w = Ok (l ++ l') /\ length l' = if w =? u then 1 else 0) /\
    (forall w, out_count g' w = out_count g w + if w =? u then 1 else 0)).
  { intros ue x O SO. split; intros w.
    - intros l Ol. apply OLD in Ol. rewrite SO. destruct (Nat.eqb_spec w u) as [->|].
      + exists [x]. rewrite O in Ol. injection Ol as <-. auto.
      + exists []. rewrite app_nil_r. auto.
    - rewrite <- RO. unfold out_count. rewrite SO. destruct (Nat.eqb_spec w u) as [->|]; [rewrite O, app_length; reflexivity|lia]. }
  destruct H as [H|[(S & ue & b & O & G & N & SO & SI)|(S & HW)]]; [left; exact H|right|right].
  - destruct (LST _ _ O SO) as [L1 L2]. split; [exact L1|]. split; [exact L2|]. split.
    + intros w. rewrite <- RI. unfold in_count. rewrite SI. reflexivity.
    + left. unfold edge_count. rewrite G. split; [reflexivity|]. intros X. unfold sel_none in S. rewrite X in S. discriminate.
  - pose proof (halfway_counts _ _ _ _ _ HW) as (HE & HO & HI). destruct HW as (_ & _ & (ue & b & O & SO) & _).
    destruct (LST _ _ O SO) as [L1 L2]. split; [exact L1|]. split; [exact L2|]. split; [intros w; rewrite HI; apply RI|].
    right. split; [lia|]. unfold second_end, is_undirected, is_bidirectional in S. destruct (c_dir c); cbn in S; [discriminate| |auto].
    left. split; [reflexivity|]. rewrite orb_false_r in S. apply negb_true_iff, Nat.eqb_neq in S. exact S.
Qed.
Print Assumptions C145_graph.

(** Finding: undirected, out-edges in a set. If the last step of adding a new edge throws, the second end does not know the
    edge, but the edge is counted; adding it again is refused and mends nothing; adding it the other way succeeds, mends the lists,
    and counts the edge twice. *)
Theorem C145_graph_half_edge_refuted : forall c e0 g u v p, c_dir c = Undirected -> c_unique c = true -> u <> v ->
  u < vertex_count g -> v < vertex_count g -> ~ lists g u v -> ~ lists g v u ->
  exists sch g', eadd c e0 sch g u v p = Ok (g', [], None) /\
    edge_count g' = S (edge_count g) /\ lists g' u v /\ ~ lists g' v u /\
    (forall p', eadd c e0 [] g' u v p' = Ok (g', [], Some (default_edge, false))) /\
    (forall p', exists g'' r, eadd c e0 [] g' v u p' = Ok (g'', [], Some (r, true)) /\ edge_count g'' = S (S (edge_count g)) /\
       out_count g'' u = S (out_count g u) /\ out_count g'' v = S (out_count g v)).
Proof.
  intros c e0 g u v p D C N U V NU NV.
  assert (UD : is_undirected c = true) by (unfold is_undirected; now rewrite D).
  assert (SE : second_end c u v = true) by (unfold second_end; rewrite UD; destruct (Nat.eqb_spec u v); [congruence|reflexivity]).
  destruct (eadd_last c e0 g u v p U V (fun _ => NU) SE) as (g' & E & HW). exists (last_step c), g'.
  pose proof (halfway_counts _ _ _ _ _ HW) as (HE & HO & _). destruct HW as (HN & _ & (ue & b & O & SO) & _).
  assert (L1 : lists g' u v).
  { exists (ue ++ [{| en_first := if has_out_vertex c then Some v else None; en_second := b |}]), {| en_first := if has_out_vertex c then Some v else None; en_second := b |}.
    split; [rewrite SO, Nat.eqb_refl; reflexivity|]. split; [apply in_or_app; right; left; reflexivity|]. unfold has_out_vertex. rewrite C. reflexivity. }
  assert (L2 : ~ lists g' v u).
  { intros (l & x & Ol & X). apply NV. exists l, x. split; [|exact X]. rewrite SO in Ol. destruct (Nat.eqb_spec v u); [congruence|exact Ol]. }
  split; [exact E|]. split; [exact HE|]. split; [exact L1|]. split; [exact L2|]. split.
  - intros p'. apply eadd_refused; auto; lia.
  - intros p'. assert (U' : u < vertex_count g') by lia. assert (V' : v < vertex_count g') by lia.
    destruct (try_other_way c e0 g' u v p' U' V' N UD C L1 L2) as (g'' & r & E2 & HE2 & HO2). exists g'', r.
    split; [exact E2|]. split; [lia|]. rewrite !HO2, !HO, !Nat.eqb_refl. destruct (Nat.eqb_spec u v); [congruence|]. destruct (Nat.eqb_spec v u); [congruence|]. lia.
Qed.
Print Assumptions C145_graph_half_edge_refuted.

Example C145_case_graph :
  let c := {| c_dir := Undirected; c_unique := true; c_sel := SelTwo |} in
  let g := empty_graph 2 in
  (~ lists g 0 1 /\ ~ lists g 1 0) /\
  exists g', eadd c 77 [false; false; true] g 0 1 5 = Ok (g', [], None) /\
    edge_count g' = 1 /\ out_edges c g' 0 = Ok [{| e_source := 0; e_target := 1; e_bundle := 0 |}] /\ out_edges c g' 1 = Ok [].
Proof.
  cbn zeta. split.
  - split; intros (l & x & O & I & _); cbv in O; injection O as <-; destruct I.
  - eexists. split; [reflexivity|]. repeat split.
Qed.
(* The indeterminate value of an edge whose end points were not stored. *)
Example C145_case_graph_dangling :
  let c := {| c_dir := Directed; c_unique := false; c_sel := SelOne |} in
  exists g', eadd c 77 [false; false; true] (empty_graph 1) 0 1 5 = Ok (g', [], None) /\ edge_count g' = 0 /\ out_count g' 0 = 1 /\ out_edges c g' 0 = AssertFail.
Proof. cbn zeta. eexists. split; [reflexivity|]. repeat split. Qed.
Example C145_case_graph_directed :
  let c := {| c_dir := Directed; c_unique := false; c_sel := SelNone |} in
  exists g', eadd c 77 [false; true] (empty_graph 1) 0 3 5 = Ok (g', [], None) /\ vertex_count g' = 4 /\ edge_count g' = 0 /\ same_edges (empty_graph 1) g'.
Proof. cbn zeta. eexists. split; [reflexivity|]. repeat split; try (cbn; lia); apply (same_edges_reserve (empty_graph 1) 0 3); assumption. Qed.
(* The steps of complete calls: three with both ends and an edge container, one more for new vertices, one without both. *)
Example C145_case_graph_steps :
  let steps c g := omap (fun x => (snd (fst x), match snd x with Some (_, ok) => ok | None => false end)) (eadd c 77 [false; false; false; false; true] g 0 1 5) in
  steps {| c_dir := Undirected; c_unique := true; c_sel := SelTwo |} (empty_graph 2) = Ok ([false; true], true) /\
  steps {| c_dir := Bidirectional; c_unique := false; c_sel := SelTwo |} (empty_graph 0) = Ok ([true], true) /\
  steps {| c_dir := Directed; c_unique := false; c_sel := SelNone |} (empty_graph 2) = Ok ([false; false; false; true], true) /\
  steps {| c_dir := Directed; c_unique := false; c_sel := SelOne |} (empty_graph 1) = Ok ([false; true], true) /\
  steps {| c_dir := Undirected; c_unique := false; c_sel := SelNone |} (empty_graph 2) = Ok ([false; false; true], true).
Proof. cbn zeta. repeat split. Qed.
