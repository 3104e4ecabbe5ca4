(** Proofs about containers (C31 - C36, C64, C65). *)
From Coq Require Import ZArith List Bool PeanoNat Lia.
From Verif Require Import Outcome ListLemmas ContainerModel.
Import ListNotations.

(** ** Queues *)
(** Reference: a FIFO queue is the list of its elements; None when the history
    asks for the front of an empty queue. *)
Fixpoint fifo_run {A} (l : list A) (h : list (qop A)) : option (list A * list A) :=
  match h with
  | [] => Some ([], l)
  | Push x :: h => fifo_run (l ++ [x]) h
  | Pop :: h => match l with [] => None | _ :: l => fifo_run l h end
  | Front :: h => match l with
                  | [] => None
                  | x :: _ => match fifo_run l h with Some (o, l) => Some (x :: o, l) | None => None end
                  end
  end.
Fixpoint pushes {A} (h : list (qop A)) : nat :=
  match h with
  | [] => 0
  | Push _ :: h => S (pushes h)
  | _ :: h => pushes h
  end.

Definition q2_abs {A} (q : queue2 A) : list A := m_out q ++ rev (m_in q).

Lemma pour_ok {A} : forall (ins outs : list A), pour ins outs = (rev ins ++ outs, length ins).
Proof.
  induction ins as [|x ins IH]; intro outs; simpl; [reflexivity|].
  rewrite IH, <- app_assoc. reflexivity.
Qed.

Lemma fill_ok {A} (q : queue2 A) : exists q' n, fill_out_stack q = (q', n) /\ q2_abs q' = q2_abs q
  /\ n + length (m_in q') = length (m_in q) /\ (m_out q' = [] -> q2_abs q = []).
Proof.
  unfold fill_out_stack. destruct (m_out q) as [|y o] eqn:E.
  - rewrite pour_ok. do 2 eexists. split; [reflexivity|]. unfold q2_abs. rewrite E. simpl.
    rewrite app_nil_r. rewrite app_nil_r. auto.
  - exists q, 0. rewrite E. repeat split. discriminate.
Qed.

Lemma q2_run_ok {A} : forall (h : list (qop A)) q,
  match fifo_run (q2_abs q) h with
  | Some (obs, l) => exists q' n, q2_run q h = Ok (obs, q', n) /\ q2_abs q' = l
      /\ n + length (m_in q') = length (m_in q) + pushes h
  | None => q2_run q h = UB
  end.
Proof.
  induction h as [|[x| |] h IH]; intro q.
  - simpl. exists q, 0. repeat split. lia.
  - cbn [fifo_run q2_run pushes].
    assert (E : q2_abs q ++ [x] = q2_abs (q2_push q x)).
    { unfold q2_abs, q2_push. simpl. now rewrite app_assoc. }
    rewrite E. specialize (IH (q2_push q x)). destruct (fifo_run (q2_abs (q2_push q x)) h) as [[o l]|]; [|exact IH].
    destruct IH as (q' & n & R & B & C). exists q', n. repeat split; try assumption. simpl in C. lia.
  - cbn [fifo_run q2_run pushes]. unfold q2_pop.
    destruct (fill_ok q) as (q' & n & E & B & C & D). rewrite E.
    destruct (m_out q') as [|y o] eqn:O; [rewrite (D eq_refl); reflexivity|].
    assert (B' : q2_abs q = y :: (o ++ rev (m_in q'))) by (rewrite <- B; unfold q2_abs; now rewrite O).
    rewrite B'. cbn [bind]. specialize (IH (Build_queue2 (m_in q') o)).
    unfold q2_abs in IH. cbn [m_in m_out] in IH.
    destruct (fifo_run (o ++ rev (m_in q')) h) as [[ob l]|]; [|now rewrite IH].
    destruct IH as (q'' & k & R & B2 & C2). rewrite R. cbn [bind]. do 2 eexists.
    split; [reflexivity|]. split; [exact B2|]. lia.
  - cbn [fifo_run q2_run pushes]. unfold q2_top.
    destruct (fill_ok q) as (q' & n & E & B & C & D). rewrite E.
    destruct (m_out q') as [|y o] eqn:O; [rewrite (D eq_refl); reflexivity|].
    assert (B' : q2_abs q = y :: (o ++ rev (m_in q'))) by (rewrite <- B; unfold q2_abs; now rewrite O).
    rewrite B'. cbn [bind]. specialize (IH q'). rewrite B, B' in IH.
    destruct (fifo_run (y :: (o ++ rev (m_in q'))) h) as [[ob l]|]; [|now rewrite IH].
    destruct IH as (q'' & k & R & B2 & C2). rewrite R. cbn [bind]. do 2 eexists.
    split; [reflexivity|]. split; [exact B2|]. lia.
Qed.

Lemma q2_empty_ok {A} (q : queue2 A) : q2_empty q = true <-> q2_abs q = [].
Proof.
  unfold q2_empty, q2_abs. destruct (m_in q) as [|x i], (m_out q) as [|y o]; simpl; split; intro H;
    try reflexivity; try discriminate.
  now apply app_eq_nil in H as [_ H].
Qed.
Lemma q2_size_ok {A} (q : queue2 A) : q2_size q = length (q2_abs q).
Proof. unfold q2_size, q2_abs. rewrite app_length, rev_length. lia. Qed.

(** Vector as queue. *)
Definition vq_abs {A} (q : vqueue A) : list A := skipn (vq_begin q) (vq_vec q).
Definition vq_wf {A} (q : vqueue A) : Prop := vq_begin q <= length (vq_vec q).

Lemma vq_front_ok {A} (q : vqueue A) :
  vq_front q = match vq_abs q with [] => UB | x :: _ => Ok x end.
Proof.
  unfold vq_front, vq_abs. destruct (nth_error (vq_vec q) (vq_begin q)) as [x|] eqn:E.
  - now rewrite (skipn_cons_nth _ _ _ E).
  - apply nth_error_None in E. now rewrite skipn_all2.
Qed.

Lemma vq_run_ok {A} : forall (h : list (qop A)) q, vq_wf q ->
  match fifo_run (vq_abs q) h with
  | Some (obs, l) => exists q', vq_run q h = Ok (obs, q') /\ vq_abs q' = l /\ vq_wf q'
      /\ length (vq_vec q') = length (vq_vec q) + pushes h
  | None => vq_run q h = AssertFail \/ vq_run q h = UB
  end.
Proof.
  induction h as [|[x| |] h IH]; intros q W.
  - simpl. exists q. repeat split; try assumption. lia.
  - cbn [fifo_run vq_run pushes].
    assert (E : vq_abs q ++ [x] = vq_abs (vq_push q x)).
    { unfold vq_abs, vq_push, vq_wf in *. simpl. rewrite skipn_app.
      replace (vq_begin q - length (vq_vec q)) with 0 by lia. reflexivity. }
    assert (W' : vq_wf (vq_push q x)).
    { unfold vq_wf, vq_push in *. simpl. rewrite app_length. lia. }
    rewrite E. specialize (IH _ W'). destruct (fifo_run (vq_abs (vq_push q x)) h) as [[o l]|]; [|exact IH].
    destruct IH as (q' & R & B & C & D). exists q'. repeat split; try assumption.
    rewrite D. simpl. rewrite app_length. simpl. lia.
  - cbn [fifo_run vq_run pushes]. unfold vq_pop. unfold vq_abs at 1.
    destruct (Nat.ltb_spec (vq_begin q) (length (vq_vec q))) as [L|L].
    + destruct (nth_error (vq_vec q) (vq_begin q)) as [y|] eqn:E;
        [|apply nth_error_None in E; lia].
      rewrite (skipn_cons_nth _ _ _ E). cbn [assert_then bind].
      specialize (IH (Build_vqueue (vq_vec q) (S (vq_begin q))) ltac:(unfold vq_wf; simpl; lia)).
      exact IH.
    + rewrite skipn_all2 by assumption. left. reflexivity.
  - cbn [fifo_run vq_run pushes]. rewrite vq_front_ok.
    destruct (vq_abs q) as [|y l] eqn:E; [right; reflexivity|]. cbn [bind].
    specialize (IH q W). rewrite E in IH.
    destruct (fifo_run (y :: l) h) as [[ob l']|].
    + destruct IH as (q' & R & B & C & D). rewrite R. cbn [bind]. exists q'. auto.
    + destruct IH as [IH|IH]; rewrite IH; auto.
Qed.

(** ** Array as vector *)
Definition av_wf {A} (s : store A) : Prop :=
  forall i a, nth_error s i = Some a -> av_obj a = i /\ av_off a <= length (av_arr a).
Definition av_abs {A} (s : store A) : list (list A) := map (fun a => firstn (av_off a) (av_arr a)) s.
Definition av_caps {A} (s : store A) : list nat := map (fun a => length (av_arr a)) s.

(** Reference: independent lists of bounded length; None: not allowed. *)
Definition ref_step {A} (cap : nat) (l : list A) (o : vop A) : option (list A) :=
  match o with
  | VPush x => if length l <? cap then Some (l ++ [x]) else None
  | VPop => match l with [] => None | _ => Some (removelast l) end
  | VClear => Some []
  end.
Fixpoint ref_run {A} (caps : list nat) (ls : list (list A)) (h : list (nat * vop A)) : option (list (list A)) :=
  match h with
  | [] => Some ls
  | (i, o) :: h =>
      match nth_error caps i, nth_error ls i with
      | Some c, Some l => match ref_step c l o with
                          | Some l => ref_run caps (list_set ls i l) h
                          | None => None
                          end
      | _, _ => None
      end
  end.

Lemma map_list_set {A B} (f : A -> B) : forall (l : list A) i x,
  map f (list_set l i x) = list_set (map f l) i (f x).
Proof. induction l as [|y l IH]; intros [|i] x; simpl; try reflexivity. now rewrite IH. Qed.

Lemma list_set_id {A} : forall (l : list A) i x, nth_error l i = Some x -> list_set l i x = l.
Proof. induction l as [|y l IH]; intros [|i] x H; simpl in *; try discriminate; [congruence|]. now rewrite IH. Qed.

Lemma list_set_set {A} : forall (l : list A) i x y, list_set (list_set l i x) i y = list_set l i y.
Proof. induction l as [|z l IH]; intros [|i] x y; simpl; try reflexivity. now rewrite IH. Qed.

Lemma av_wf_set {A} (s : store A) i a : av_wf s -> av_obj a = i -> av_off a <= length (av_arr a) ->
  av_wf (list_set s i a).
Proof.
  intros W H1 H2 j b Hb. destruct (Nat.eq_dec i j) as [<-|N].
  - assert (L : i < length s).
    { rewrite <- (list_set_length s i a). apply nth_error_Some. congruence. }
    rewrite list_set_same in Hb by assumption. injection Hb as <-. auto.
  - rewrite list_set_other in Hb by assumption. now apply W.
Qed.

Lemma firstn_list_set {A} (l : list A) n x : n < length l ->
  firstn (S n) (list_set l n x) = firstn n l ++ [x].
Proof.
  intro H. rewrite list_set_eq by assumption. rewrite firstn_app, firstn_firstn, firstn_length.
  replace (Nat.min (S n) n) with n by lia. f_equal.
  replace (S n - Nat.min n (length l)) with 1 by lia. reflexivity.
Qed.

Lemma removelast_firstn_S {A} (l : list A) n : S n <= length l ->
  removelast (firstn (S n) l) = firstn n l.
Proof. intro H. now apply removelast_firstn. Qed.

Lemma av_step_ok {A} (s : store A) i o c l l' : av_wf s ->
  nth_error (av_caps s) i = Some c -> nth_error (av_abs s) i = Some l ->
  ref_step c l o = Some l' ->
  exists s', av_step s i o = Ok s' /\ av_wf s' /\ av_caps s' = av_caps s /\ av_abs s' = list_set (av_abs s) i l'.
Proof.
  intros W C L R. unfold av_caps in C. unfold av_abs in L. rewrite nth_error_map in C, L.
  destruct (nth_error s i) as [a|] eqn:Ha; [|discriminate]. simpl in C, L.
  injection C as <-. injection L as <-. destruct (W i a Ha) as [O B].
  assert (Li : i < length s) by (apply nth_error_Some; congruence).
  destruct o as [x| |]; simpl in R |- *.
  - rewrite firstn_length, Nat.min_l in R by assumption.
    destruct (Nat.ltb_spec (av_off a) (length (av_arr a))) as [H|H]; [|discriminate].
    injection R as <-. unfold av_push. rewrite Ha, O, Ha.
    destruct (Nat.ltb_spec (av_off a) (length (av_arr a))); [|lia].
    rewrite list_set_same by assumption. cbn [av_arr av_obj av_off]. rewrite list_set_set.
    eexists. split; [reflexivity|]. split; [|split].
    + apply av_wf_set; [assumption|(reflexivity || exact O)|]. simpl. rewrite list_set_length. lia.
    + unfold av_caps. rewrite map_list_set. apply list_set_id. simpl.
      rewrite list_set_length, nth_error_map, Ha. reflexivity.
    + unfold av_abs. rewrite map_list_set. cbn [av_off av_arr]. now rewrite firstn_list_set.
  - unfold av_pop. rewrite Ha, O, Nat.eqb_refl. destruct (av_off a) as [|n] eqn:N.
    { simpl in R. discriminate. }
    simpl. destruct (av_arr a) as [|y t] eqn:T; [simpl in B; lia|]. cbn [firstn] in R.
    injection R as <-. eexists. split; [reflexivity|].
    rewrite Nat.sub_0_r. split; [|split].
    + apply av_wf_set; [assumption|(reflexivity || exact O)|]. simpl in *. lia.
    + unfold av_caps. rewrite map_list_set. apply list_set_id. rewrite nth_error_map, Ha. simpl. now rewrite T.
    + unfold av_abs. rewrite map_list_set. f_equal. cbn [av_off av_arr]. symmetry.
      exact (removelast_firstn_S (y :: t) n B).
  - unfold av_clear. rewrite Ha. injection R as <-. eexists. split; [reflexivity|]. split; [|split].
    + apply av_wf_set; [assumption|(reflexivity || exact O)|]. simpl. lia.
    + unfold av_caps. rewrite map_list_set. apply list_set_id. simpl. now rewrite nth_error_map, Ha.
    + unfold av_abs. rewrite map_list_set. reflexivity.
Qed.

Lemma av_run_ok {A} : forall (h : list (nat * vop A)) s ls, av_wf s ->
  ref_run (av_caps s) (av_abs s) h = Some ls ->
  exists s', av_run s h = Ok s' /\ av_wf s' /\ av_caps s' = av_caps s /\ av_abs s' = ls.
Proof.
  induction h as [|[i o] h IH]; intros s ls W R; cbn [ref_run av_run] in *.
  - injection R as <-. exists s. auto.
  - destruct (nth_error (av_caps s) i) as [c|] eqn:C; [|discriminate].
    destruct (nth_error (av_abs s) i) as [l|] eqn:L; [|discriminate].
    destruct (ref_step c l o) as [l'|] eqn:E; [|discriminate].
    destruct (av_step_ok s i o c l l' W C L E) as (s' & S1 & W1 & C1 & A1).
    rewrite S1. cbn [bind]. rewrite <- C1, <- A1 in R. destruct (IH s' ls W1 R) as (s2 & R2 & W2 & C2 & A2).
    exists s2. rewrite C2. auto.
Qed.

Lemma av_make_wf {A} (a0s : list (list A)) :
  let s := map (fun p => av_make (fst p) (snd p)) (combine (seq 0 (length a0s)) a0s) in
  av_wf s /\ av_caps s = map (@length A) a0s /\ av_abs s = map (fun _ => []) a0s.
Proof.
  intro s. subst s. split; [|split].
  - intros i a H. rewrite nth_error_map in H.
    destruct (nth_error (combine (seq 0 (length a0s)) a0s) i) as [[k l]|] eqn:E; [|discriminate].
    simpl in H. injection H as <-. simpl. split; [|lia].
    assert (G : forall (l0 : list (list A)) n j, nth_error (combine (seq n (length l0)) l0) j = Some (k, l) -> k = n + j).
    { induction l0 as [|z l0 IH]; intros n [|j] H; simpl in *; try discriminate.
      - injection H as -> _. lia.
      - apply IH in H. lia. }
    now apply G in E.
  - unfold av_caps. rewrite map_map.
    assert (G : forall (l : list (list A)) n, map (fun p : nat * list A => length (av_arr (av_make (fst p) (snd p)))) (combine (seq n (length l)) l) = map (@length A) l).
    { induction l as [|z l IH]; intro n; simpl; [reflexivity|]. now rewrite IH. }
    apply G.
  - unfold av_abs. rewrite map_map.
    assert (G : forall (l : list (list A)) n, map (fun p : nat * list A => firstn (av_off (av_make (fst p) (snd p))) (av_arr (av_make (fst p) (snd p)))) (combine (seq n (length l)) l) = map (fun _ => []) l).
    { induction l as [|z l IH]; intro n; simpl; [reflexivity|]. now rewrite IH. }
    apply G.
Qed.

(** ** Semi-static array *)
Section SemiProofs.
  Context {T : Type}.
  Variable eqb : T -> T -> bool.
  Hypothesis eqb_ok : forall a b, eqb a b = true <-> a = b.
  Variable dyn : T.

  Notation count := (count_dyn eqb dyn).
  Notation isdyn := (is_dyn eqb dyn).

  Lemma count_lt vs i v : nth_error vs i = Some v -> isdyn v = true ->
    count i vs < length (filter isdyn vs).
  Proof.
    revert i. induction vs as [|w vs IH]; intros [|i] H D; simpl in *; try discriminate.
    - injection H as ->. rewrite D. simpl. lia.
    - specialize (IH i H D). destruct (isdyn w); simpl; lia.
  Qed.

  Lemma count_inj vs i j v w : nth_error vs i = Some v -> nth_error vs j = Some w ->
    isdyn v = true -> isdyn w = true -> count i vs = count j vs -> i = j.
  Proof.
    revert i j. induction vs as [|u vs IH]; intros [|i] [|j] Hi Hj Di Dj E; simpl in *; try discriminate; try reflexivity.
    - injection Hi as ->. rewrite Di in E. simpl in E. lia.
    - injection Hj as ->. rewrite Dj in E. simpl in E. lia.
    - f_equal. apply IH; try assumption. destruct (isdyn u); lia.
  Qed.

  Lemma count_surj vs k : k < length (filter isdyn vs) ->
    exists i v, nth_error vs i = Some v /\ isdyn v = true /\ count i vs = k.
  Proof.
    revert k. induction vs as [|u vs IH]; intros k H; simpl in H; [lia|].
    destruct (isdyn u) eqn:D.
    - destruct k.
      + exists 0, u. auto.
      + simpl in H. destruct (IH k ltac:(lia)) as (i & v & A & B & C). exists (S i), v.
        simpl. rewrite D, C. auto.
    - destruct (IH k H) as (i & v & A & B & C). exists (S i), v. simpl. rewrite D, C. auto.
  Qed.

  Variable values : list T.
  Notation size_dyn := (size_dyn eqb dyn values).
  Notation get := (ssa_get eqb dyn values).
  Notation set := (ssa_set eqb dyn values).

  Lemma ssa_get_total dv i : length dv = size_dyn -> i < length values -> exists x, get dv i = Ok x.
  Proof.
    intros L H. unfold ssa_get. rewrite (proj2 (Nat.ltb_lt _ _) H). cbn [assert_then].
    destruct (nth_error values i) as [v|] eqn:E; [|apply nth_error_None in E; lia].
    destruct (isdyn v) eqn:D; simpl; [|eauto].
    pose proof (count_lt _ _ _ E D). unfold dynamic_index.
    destruct (nth_error dv (count i values)) eqn:F; [eauto|].
    apply nth_error_None in F. unfold ContainerModel.size_dyn in *. lia.
  Qed.

  Lemma ssa_get_static dv i v : nth_error values i = Some v -> v <> dyn -> get dv i = Ok v.
  Proof.
    intros E D. unfold ssa_get. assert (i < length values) by (apply nth_error_Some; congruence).
    rewrite (proj2 (Nat.ltb_lt _ _)) by assumption. cbn [assert_then]. rewrite E.
    unfold is_dyn. destruct (eqb v dyn) eqn:X; [apply eqb_ok in X; contradiction|reflexivity].
  Qed.

  Lemma ssa_set_ok dv i x dv' : length dv = size_dyn -> set dv i x = Some dv' ->
    length dv' = size_dyn /\ get dv' i = Ok x /\ forall j, i <> j -> get dv' j = get dv j.
  Proof.
    intros L H. unfold ssa_set in H. destruct (nth_error values i) as [v|] eqn:E; [|discriminate].
    destruct (isdyn v) eqn:D; [|discriminate]. injection H as <-.
    pose proof (count_lt _ _ _ E D) as C. fold size_dyn in C.
    unfold dynamic_index. rewrite list_set_length. split; [assumption|]. split.
    - unfold ssa_get. assert (i < length values) by (apply nth_error_Some; congruence).
      rewrite (proj2 (Nat.ltb_lt _ _)) by assumption. cbn [assert_then]. rewrite E, D. simpl.
      unfold dynamic_index. rewrite list_set_same by (unfold ContainerModel.size_dyn in *; lia). reflexivity.
    - intros j N. unfold ssa_get. destruct (nth_error values j) as [w|] eqn:Ej; [|reflexivity].
      destruct (isdyn w) eqn:Dw; [|reflexivity]. unfold dynamic_index.
      rewrite list_set_other; [reflexivity|]. intro Q. apply N. eapply count_inj; eassumption.
  Qed.

  Lemma ssa_assign_ok dv i x : length dv = size_dyn -> i < length values ->
    (forall v, nth_error values i = Some v -> v <> dyn -> x = v) ->
    let dv' := assign_at eqb dyn values dv i x in
    length dv' = size_dyn /\ get dv' i = Ok x /\ forall j, i <> j -> get dv' j = get dv j.
  Proof.
    intros L Hi Hx dv'. subst dv'. unfold assign_at. destruct (set dv i x) as [dv'|] eqn:E.
    - now apply ssa_set_ok.
    - split; [assumption|]. split; [|reflexivity]. unfold ssa_set in E.
      destruct (nth_error values i) as [v|] eqn:F; [|apply nth_error_None in F; lia].
      destruct (isdyn v) eqn:D; [discriminate|].
      assert (v <> dyn) by (intro Q; apply eqb_ok in Q; unfold is_dyn in D; congruence).
      rewrite (Hx v eq_refl) by assumption. now apply ssa_get_static.
  Qed.

  Lemma assign_all_ok : forall xs dv i, length dv = size_dyn -> i + length xs <= length values ->
    (forall j v x, nth_error values (i + j) = Some v -> v <> dyn -> nth_error xs j = Some x -> x = v) ->
    let dv' := assign_all eqb dyn values dv i xs in
    length dv' = size_dyn /\ (forall j x, nth_error xs j = Some x -> get dv' (i + j) = Ok x)
    /\ forall j, j < i \/ i + length xs <= j -> get dv' j = get dv j.
  Proof.
    induction xs as [|x xs IH]; intros dv i L B H; cbn [assign_all length] in *; cbv zeta.
    - repeat split; try assumption. intros [|j] x Hx; discriminate.
    - destruct (ssa_assign_ok dv i x L ltac:(lia)) as (L1 & G1 & O1).
      { intros v Hv N. apply (H 0 v x); [now rewrite Nat.add_0_r|assumption|reflexivity]. }
      destruct (IH (assign_at eqb dyn values dv i x) (S i) L1 ltac:(lia)) as (L2 & G2 & O2).
      { intros j v y Hv N Hy. apply (H (S j) v y); [now rewrite Nat.add_succ_r|assumption|assumption]. }
      split; [exact L2|]. split.
      + intros [|j] y Hy; simpl in Hy.
        * injection Hy as <-. rewrite Nat.add_0_r. rewrite O2 by lia. exact G1.
        * rewrite Nat.add_succ_r. exact (G2 j y Hy).
      + intros j Hj. rewrite O2 by lia. apply O1. lia.
  Qed.

  Lemma is_equal_array_ok : forall l r, is_equal_array eqb l r = true <-> l = r.
  Proof.
    induction l as [|x l IH]; intros [|y r]; simpl; split; intro H; try reflexivity; try discriminate.
    - apply andb_true_iff in H as [H1 H2]. apply eqb_ok in H1 as ->. f_equal. now apply IH.
    - injection H as -> ->. apply andb_true_iff. split; [now apply eqb_ok|now apply IH].
  Qed.

  Lemma ssa_ext l r : length l = size_dyn -> length r = size_dyn ->
    (forall i, i < length values -> get l i = get r i) -> l = r.
  Proof.
    intros Ll Lr H. apply list_ext_nth. intro k.
    destruct (Nat.lt_ge_cases k size_dyn) as [K|K].
    - destruct (count_surj values k K) as (i & v & E & D & C).
      assert (Hi : i < length values) by (apply nth_error_Some; congruence).
      specialize (H i Hi). unfold ssa_get in H.
      rewrite (proj2 (Nat.ltb_lt _ _) Hi) in H. cbn [assert_then] in H.
      rewrite E, D in H. simpl in H. unfold dynamic_index in H. rewrite C in H.
      destruct (nth_error l k) eqn:F1; [|apply nth_error_None in F1; lia].
      destruct (nth_error r k) eqn:F2; [|apply nth_error_None in F2; lia]. congruence.
    - rewrite (proj2 (nth_error_None l k)), (proj2 (nth_error_None r k)) by lia. reflexivity.
  Qed.
End SemiProofs.

(** ** Tensor indices *)
Section TensorProofs.
  Local Open Scope Z_scope.

  (** Reference: product of the dimensions and row-major position. *)
  Fixpoint zprod (ds : list Z) : Z := match ds with [] => 1 | d :: ds => d * zprod ds end.
  Fixpoint row_major (ds is : list Z) : Z :=
    match ds, is with
    | d :: ds, i :: is => i * zprod ds + row_major ds is
    | _, _ => 0
    end.
  Definition in_shape (ds is : list Z) : Prop := Forall2 (fun d i => 0 <= i < d) ds is.

  Lemma in_shape_pos ds is : in_shape ds is -> Forall (fun d => 0 < d) ds.
  Proof. induction 1; constructor; [lia|assumption]. Qed.

  Lemma zprod_pos ds : Forall (fun d => 0 < d) ds -> 0 < zprod ds.
  Proof. induction 1; simpl zprod; [lia|nia]. Qed.
  Lemma zprod_nonneg ds : Forall (fun d => 0 <= d) ds -> 0 <= zprod ds.
  Proof. induction 1; simpl zprod; [lia|nia]. Qed.

  Lemma row_major_bound ds is : in_shape ds is -> 0 <= row_major ds is < zprod ds.
  Proof.
    induction 1 as [|d i ds is Hi F IH]; simpl zprod; simpl row_major; [lia|].
    assert (0 < zprod ds) by (apply zprod_pos; eapply in_shape_pos; eassumption). nia.
  Qed.

  Lemma compute_product_acc ds : forall r, 0 <= r -> Forall (fun d => 0 < d) ds -> r * zprod ds < 2 ^ 64 ->
    fold_left (fun res v => w64 (res * v)) ds r = r * zprod ds.
  Proof.
    induction ds as [|d ds IH]; intros r Hr F H; cbn [fold_left zprod] in *; [lia|].
    inversion F as [|? ? Hd F']; subst. pose proof (zprod_pos ds F').
    assert (E : w64 (r * d) = r * d).
    { unfold w64. apply Z.mod_small. split; [nia|].
      apply Z.le_lt_trans with (r * (d * zprod ds)); [|assumption].
      assert (0 <= r * d) by nia. nia. }
    rewrite E, IH; [lia|nia|assumption|lia].
  Qed.
  Lemma compute_product_ok ds : Forall (fun d => 0 < d) ds -> zprod ds < 2 ^ 64 -> compute_product ds = zprod ds.
  Proof. intros F H. unfold compute_product. rewrite compute_product_acc; lia || assumption. Qed.

  Lemma fold_zero : forall ds, fold_left (fun res v => w64 (res * v)) ds 0 = 0.
  Proof. induction ds; cbn [fold_left]; [reflexivity|]. rewrite Z.mul_0_l. exact IHds. Qed.

  (** Congruence, without hypotheses. *)
  Lemma compute_product_mod ds : compute_product ds = (zprod ds) mod 2 ^ 64.
  Proof.
    unfold compute_product.
    assert (G : forall ds r, (fold_left (fun res v => w64 (res * v)) ds r) mod 2 ^ 64 = (r * zprod ds) mod 2 ^ 64).
    { clear ds. induction ds as [|d ds IH]; intro r; cbn [fold_left zprod]; [now rewrite Z.mul_1_r|].
      rewrite IH. unfold w64. rewrite Z.mul_mod_idemp_l by lia. f_equal. lia. }
    destruct ds as [|d ds]; [reflexivity|].
    assert (B : 0 <= fold_left (fun res v => w64 (res * v)) (d :: ds) 1 < 2 ^ 64).
    { cbn [fold_left].
      assert (I : 0 <= w64 (1 * d) < 2 ^ 64) by (apply Z.mod_pos_bound; lia).
      revert I. generalize (w64 (1 * d)). clear. induction ds as [|e ds IH]; intros r I; cbn [fold_left]; [assumption|].
      apply IH. apply Z.mod_pos_bound. lia. }
    rewrite <- (Z.mod_small _ _ B), G. f_equal. lia.
  Qed.

  Lemma get_index_acc ds is : in_shape ds is -> forall first res, 0 <= res -> (first = true -> res = 0) ->
    res * zprod ds + row_major ds is < 2 ^ 64 ->
    get_index first res ds is = Ok (res * zprod ds + row_major ds is).
  Proof.
    induction 1 as [|d i ds is Hi F IH]; intros first res Hr H0 B.
    - cbn [get_index zprod row_major]. f_equal. lia.
    - cbn [get_index zprod row_major] in *.
      rewrite (proj2 (Z.leb_le 0 i)), (proj2 (Z.ltb_lt i d)) by lia. cbn [andb assert_then].
      assert (P : 0 < zprod ds) by (apply zprod_pos; eapply in_shape_pos; eassumption).
      pose proof (row_major_bound ds is F) as R.
      assert (Q : 0 <= res * d) by nia.
      assert (E : (if first then res else w64 (res * d)) = res * d).
      { destruct first; [rewrite H0 by reflexivity; lia|]. unfold w64. apply Z.mod_small.
        split; [assumption|]. assert (res * d <= res * d * zprod ds) by nia. nia. }
      rewrite E. assert (E2 : w64 (res * d + i) = res * d + i).
      { unfold w64. apply Z.mod_small. split; [lia|].
        assert (res * d + i <= (res * d + i) * zprod ds) by nia. nia. }
      rewrite E2, IH; [f_equal; lia|lia|discriminate|lia].
  Qed.

  Lemma get_index_ok ds is : in_shape ds is -> zprod ds <= 2 ^ 64 ->
    get_index true 0 ds is = Ok (row_major ds is).
  Proof.
    intros H B. rewrite (get_index_acc ds is H); [reflexivity|lia|reflexivity|].
    pose proof (row_major_bound ds is H). lia.
  Qed.

  Lemma get_index_rejects ds is first res : Forall (fun i => 0 <= i) is -> ~ in_shape ds is ->
    get_index first res ds is = AssertFail.
  Proof.
    intro N. revert ds first res. induction N as [|i is Hi N IH]; intros [|d ds] first res H; cbn [get_index]; try reflexivity.
    - exfalso. apply H. constructor.
    - rewrite (proj2 (Z.leb_le 0 i)) by assumption. destruct (Z.ltb_spec i d) as [L|L]; cbn [andb assert_then]; [|reflexivity].
      apply IH. intro F. apply H. constructor; [lia|assumption].
  Qed.

  Lemma sub_index_ok ds is : in_shape ds is -> ds <> [] -> zprod ds < 2 ^ 64 -> forall base,
    sub_index base ds is = Ok (base + row_major ds is).
  Proof.
    induction 1 as [|d i ds is Hi F IH]; intros N B base; [contradiction|].
    cbn [sub_index zprod row_major] in *.
    rewrite (proj2 (Z.leb_le 0 i)), (proj2 (Z.ltb_lt i d)) by lia. cbn [andb assert_then].
    pose proof (in_shape_pos _ _ F) as P. pose proof (zprod_pos ds P) as P1.
    destruct ds as [|d' ds].
    - inversion F; subst. cbn [zprod row_major]. f_equal. lia.
    - assert (B1 : zprod (d' :: ds) < 2 ^ 64) by nia.
      rewrite compute_product_ok by assumption. rewrite IH by (discriminate || assumption).
      unfold w64. rewrite Z.mod_small by nia. f_equal. lia.
  Qed.

  (** Lexicographical order of multi-indices. *)
  Fixpoint lex_lt (a b : list Z) : Prop :=
    match a, b with
    | x :: a, y :: b => x < y \/ (x = y /\ lex_lt a b)
    | _, _ => False
    end.

  Lemma row_major_lex ds a : in_shape ds a -> forall b, in_shape ds b ->
    (lex_lt a b <-> row_major ds a < row_major ds b).
  Proof.
    induction 1 as [|d i ds a Hi F IH]; intros b Hb; inversion Hb as [|? j ? b' Hj Fb]; subst; simpl lex_lt; simpl row_major; [lia|].
    specialize (IH b' Fb). pose proof (row_major_bound ds a F). pose proof (row_major_bound ds b' Fb).
    rewrite IH. nia.
  Qed.

  Lemma lex_total ds a : in_shape ds a -> forall b, in_shape ds b -> lex_lt a b \/ a = b \/ lex_lt b a.
  Proof.
    induction 1 as [|d i ds a Hi F IH]; intros b Hb; inversion Hb as [|? j ? b' Hj Fb]; subst; simpl; [auto|].
    destruct (Z.lt_trichotomy i j) as [|[->|]]; [auto| |auto].
    destruct (IH b' Fb) as [|[->|]]; auto.
  Qed.

  Lemma row_major_inj ds a b : in_shape ds a -> in_shape ds b -> row_major ds a = row_major ds b -> a = b.
  Proof.
    intros Ha Hb E. destruct (lex_total ds a Ha b Hb) as [L|[L|L]]; [|assumption|].
    - apply (row_major_lex ds a Ha b Hb) in L. lia.
    - apply (row_major_lex ds b Hb a Ha) in L. lia.
  Qed.

  Lemma row_major_surj ds : forall p, Forall (fun d => 0 <= d) ds -> 0 <= p < zprod ds ->
    exists is, in_shape ds is /\ row_major ds is = p.
  Proof.
    induction ds as [|d ds IH]; intros p F H; cbn [zprod] in H.
    - exists []. split; [constructor|]. simpl. lia.
    - inversion F as [|? ? Hd F']; subst. pose proof (zprod_nonneg ds F') as P.
      assert (0 < zprod ds) by nia.
      destruct (IH (p mod zprod ds) F') as (is & S & R); [apply Z.mod_pos_bound; lia|].
      exists (p / zprod ds :: is). split.
      + constructor; [|assumption]. split; [apply Z.div_pos; lia|]. apply Z.div_lt_upper_bound; lia.
      + cbn [row_major]. rewrite R. pose proof (Z.div_mod p (zprod ds)). lia.
  Qed.
End TensorProofs.
