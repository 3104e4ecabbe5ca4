(** Properties C31 - C36, C64, C65: containers. *)
From Coq Require Import ZArith List Bool PeanoNat Lia.
From Verif Require Import Outcome ListLemmas ContainerModel ContainerProofs TensorProofs.
Import ListNotations.

(** * C31 *)
(** From an empty queue, any history gives the observations of a FIFO queue
    ([fifo_run] works on the list of the elements in order of insertion);
    a history reading the front of an empty queue is UB; the number of moves of
    elements between the stacks is at most the number of pushes. *)
Theorem C31_fifo : forall (A : Type) (h : list (qop A)),
  match fifo_run [] h with
  | Some (obs, l) => exists q n, q2_run (Build_queue2 [] []) h = Ok (obs, q, n)
      /\ (q2_empty q = true <-> l = []) /\ q2_size q = length l /\ n <= pushes h
  | None => q2_run (Build_queue2 [] []) h = UB
  end.
Proof.
  intros A h. pose proof (q2_run_ok h (Build_queue2 [] [])) as H.
  change (q2_abs (Build_queue2 [] [])) with (@nil A) in H.
  destruct (fifo_run [] h) as [[obs l]|]; [|exact H].
  destruct H as (q & n & R & E & C). exists q, n. split; [exact R|]. split; [rewrite <- E; apply q2_empty_ok|].
  split; [rewrite q2_size_ok; now rewrite E|]. simpl in C. lia.
Qed.
Print Assumptions C31_fifo.
(** Continuing from any reached state behaves as the queue of its contents. *)
Theorem C31_fifo_any_state : forall (A : Type) (h : list (qop A)) q,
  match fifo_run (m_out q ++ rev (m_in q)) h with
  | Some (obs, l) => exists q' n, q2_run q h = Ok (obs, q', n) /\ m_out q' ++ rev (m_in q') = l
      /\ n <= length (m_in q) + pushes h
  | None => q2_run q h = UB
  end.
Proof.
  intros A h q. pose proof (q2_run_ok h q) as H. unfold q2_abs in H.
  destruct (fifo_run (m_out q ++ rev (m_in q)) h) as [[obs l]|]; [|exact H].
  destruct H as (q' & n & R & E & C). exists q', n. repeat split; try assumption. lia.
Qed.
Print Assumptions C31_fifo_any_state.
Example C31_case :
  fifo_run [] [Push 1; Push 2; Front; Pop; Push 3; Front; Pop; Front] = Some ([1; 2; 3], [3])
  /\ q2_run (Build_queue2 [] []) [Push 1; Push 2; Front; Pop; Push 3; Front; Pop; Front]
     = Ok ([1; 2; 3], Build_queue2 [] [3], 3).
Proof. auto. Qed.

(** * C32 *)
Theorem C32_fifo : forall (A : Type) (h : list (qop A)),
  match fifo_run [] h with
  | Some (obs, l) => exists q, vq_run (Build_vqueue [] 0) h = Ok (obs, q)
      /\ (vq_empty q = true <-> l = []) /\ vq_size q = length l
      /\ vq_front q = match l with [] => UB | x :: _ => Ok x end
      /\ (l <> [] -> exists x l', l = l' ++ [x] /\ vq_back q = Ok x)
  | None => vq_run (Build_vqueue [] 0) h = AssertFail \/ vq_run (Build_vqueue [] 0) h = UB
  end.
Proof.
  intros A h. pose proof (vq_run_ok h (Build_vqueue [] 0) (le_n 0)) as H.
  change (vq_abs (Build_vqueue [] 0)) with (@nil A) in H.
  destruct (fifo_run [] h) as [[obs l]|]; [|exact H].
  destruct H as (q & R & E & W & C). unfold vq_wf in W. exists q. split; [exact R|].
  assert (Ll : length l = length (vq_vec q) - vq_begin q) by (rewrite <- E; apply skipn_length).
  split; [|split; [|split]].
  - unfold vq_empty. rewrite Nat.eqb_eq. split; intro H.
    + destruct l; [reflexivity|]. simpl in Ll. lia.
    + rewrite H in Ll. simpl in Ll. lia.
  - unfold vq_size. lia.
  - rewrite vq_front_ok, E. reflexivity.
  - intro N. destruct (exists_last N) as (l' & x & ->). exists x, l'. split; [reflexivity|].
    unfold vq_back. rewrite app_length in Ll. simpl in Ll.
    assert (X : nth_error (vq_vec q) (vq_begin q + length l') = Some x).
    { rewrite <- nth_error_skipn_add. unfold vq_abs in E. rewrite E.
      rewrite nth_error_app2 by lia. rewrite Nat.sub_diag. reflexivity. }
    replace (length (vq_vec q) - 1) with (vq_begin q + length l') by lia. now rewrite X.
Qed.
Print Assumptions C32_fifo.
Example C32_case :
  vq_run (Build_vqueue [] 0) [Push 1; Push 2; Front; Pop; Push 3; Front; Pop] = Ok ([1; 2], Build_vqueue [1; 2; 3] 2)
  /\ vq_run (Build_vqueue [] 0) [Push 1; Pop; Pop] = AssertFail.
Proof. auto. Qed.
(** Storage is never reclaimed: the memory used is the number of pushes ever
    made, whatever the size of the queue. *)
Theorem C32_storage_grows : forall (A : Type) (h : list (qop A)) obs q,
  vq_run (Build_vqueue [] 0) h = Ok (obs, q) -> length (vq_vec q) = pushes h.
Proof.
  intros A h obs q R. pose proof (vq_run_ok h (Build_vqueue [] 0) (le_n 0)) as H.
  destruct (fifo_run (vq_abs (Build_vqueue [] 0)) h) as [[o l]|].
  - destruct H as (q' & R' & _ & _ & C). rewrite R in R'. injection R' as -> ->. exact C.
  - destruct H as [H|H]; rewrite R in H; discriminate.
Qed.
Print Assumptions C32_storage_grows.

(** The elements pushed by a history, in order. *)
Fixpoint pushed {A} (h : list (qop A)) : list A :=
  match h with [] => [] | Push x :: h => x :: pushed h | _ :: h => pushed h end.
Lemma vq_run_vec A (h : list (qop A)) : forall q obs q', vq_run q h = Ok (obs, q') -> vq_vec q' = vq_vec q ++ pushed h.
Proof.
  induction h as [|[x| |] h IH]; intros q obs q' R; cbn [vq_run pushed] in *.
  - injection R as _ <-. symmetry. apply app_nil_r.
  - rewrite (IH _ _ _ R). cbn [vq_push vq_vec]. now rewrite <- app_assoc.
  - unfold vq_pop, assert_then in R. destruct (vq_begin q <? length (vq_vec q)); [|discriminate]. exact (IH _ _ _ R).
  - destruct (vq_front q); try discriminate. cbn [bind] in R.
    destruct (vq_run q h) as [[l q2]| | | |] eqn:E; try discriminate. cbn in R. injection R as _ <-. exact (IH _ _ _ E).
Qed.
(** back() of a queue without elements is not checked: it is undefined for a queue that nothing was
    pushed to, and otherwise an element that was popped, the last one pushed. *)
Theorem C32_back_empty : forall (A : Type) (h : list (qop A)) obs, fifo_run [] h = Some (obs, []) ->
  exists q, vq_run (Build_vqueue [] 0) h = Ok (obs, q) /\ vq_empty q = true /\
    (pushed h = [] -> vq_back q = UB) /\ forall l x, pushed h = l ++ [x] -> vq_back q = Ok x.
Proof.
  intros A h obs F. pose proof (C32_fifo A h) as H. rewrite F in H. destruct H as (q & R & E & _).
  exists q. split; [exact R|]. split; [now apply E|].
  pose proof (vq_run_vec A h _ _ _ R) as V. cbn [vq_vec app] in V. unfold vq_back. rewrite V. split.
  - now intros ->.
  - intros l x ->. rewrite app_length. cbn [length]. replace (length l + 1 - 1) with (length l) by lia.
    rewrite nth_error_app2 by lia. now rewrite Nat.sub_diag.
Qed.
Print Assumptions C32_back_empty.
Example C32_back_case : fifo_run [] [Push 1; Push 2; Pop; Pop] = Some ([], []) /\ pushed [Push 1; Push 2; Pop; Pop] = [1] ++ [2].
Proof. auto. Qed.

(** * C33 *)
(** Any number of vectors with arbitrary capacities and initial storage
    contents [a0s], any interleaved history of operations allowed by the
    reference ([ref_run]: independent lists bounded by the capacities): the
    run succeeds, size() and the elements of each vector are those of its list,
    and so are operator[] and back(). *)
Theorem C33_bounded_vector : forall (A : Type) (a0s : list (list A)) h ls,
  ref_run (map (@length A) a0s) (map (fun _ => []) a0s) h = Some ls ->
  exists s, av_run (map (fun p => av_make (fst p) (snd p)) (combine (seq 0 (length a0s)) a0s)) h = Ok s
  /\ length s = length ls
  /\ forall i l, nth_error ls i = Some l -> exists a, nth_error s i = Some a
     /\ av_size i a = Ok (length l) /\ av_list i a = Ok l
     /\ (forall k x, nth_error l k = Some x -> av_index a k = Ok x)
     /\ (forall x l', l = l' ++ [x] -> av_back s a = Ok x)
     /\ exists a0, nth_error a0s i = Some a0 /\ length l <= length a0.
Proof.
  intros A a0s h ls R. destruct (av_make_wf a0s) as (W & C & B).
  set (s0 := map (fun p => av_make (fst p) (snd p)) (combine (seq 0 (length a0s)) a0s)) in *.
  rewrite <- C, <- B in R. destruct (av_run_ok h s0 ls W R) as (s & Rn & W' & C' & B').
  exists s. split; [exact Rn|]. split; [rewrite <- B'; unfold av_abs; now rewrite map_length|].
  intros i l Hl. rewrite <- B' in Hl. unfold av_abs in Hl. rewrite nth_error_map in Hl.
  destruct (nth_error s i) as [a|] eqn:Ha; [|discriminate]. injection Hl as <-.
  destruct (W' i a Ha) as [O Le]. exists a. split; [reflexivity|].
  unfold av_list, av_size. rewrite O, Nat.eqb_refl. cbn [bind].
  rewrite firstn_length, Nat.min_l by assumption. split; [reflexivity|]. split; [reflexivity|].
  assert (K : forall k x, nth_error (firstn (av_off a) (av_arr a)) k = Some x -> av_index a k = Ok x).
  { intros k x Hk. assert (L : k < av_off a).
    { assert (k < length (firstn (av_off a) (av_arr a))) by (apply nth_error_Some; congruence).
      rewrite firstn_length in *. lia. }
    rewrite nth_error_firstn_lt in Hk by assumption. unfold av_index. now rewrite Hk. }
  split; [exact K|]. split.
  - intros x l' E. unfold av_back. assert (Q : av_off a = S (length l')).
    { apply (f_equal (@length A)) in E. rewrite firstn_length, app_length in E. simpl in E. lia. }
    rewrite Q. cbn [Nat.eqb]. rewrite O, Ha. rewrite Nat.sub_0_r || idtac. apply K. rewrite E.
    replace (S (length l') - 1) with (length l') by lia.
    rewrite nth_error_app2 by lia. now rewrite Nat.sub_diag.
  - assert (Q : nth_error (av_caps s) i = Some (length (av_arr a))) by (unfold av_caps; now rewrite nth_error_map, Ha).
    rewrite C', C in Q. rewrite nth_error_map in Q. destruct (nth_error a0s i) as [a0|]; [|discriminate].
    exists a0. split; [reflexivity|]. injection Q as ->. assumption.
Qed.
Print Assumptions C33_bounded_vector.
Example C33_case :
  ref_run [2; 1] [[]; []] [(0, VPush 5); (1, VPush 7); (0, VPush 6); (0, VPop); (0, VPush 8)] = Some [[5; 8]; [7]]
  /\ av_run [av_make 0 [0; 0]; av_make 1 [9]] [(0, VPush 5); (1, VPush 7); (0, VPush 6); (0, VPop); (0, VPush 8)]
     = Ok [Build_avec [5; 8] 0 2; Build_avec [7] 1 1].
Proof. auto. Qed.
(** Finding: a copy shares the end position with the original: its size is
    undefined, and pushing to the copy overwrites the original. *)
Theorem C33_copy_refuted : exists (s s1 s2 : store nat),
  av_run [av_make 0 [0; 0; 0]] [(0, VPush 5)] = Ok s /\ av_copy s 0 = Ok s1
  /\ (forall a, nth_error s1 1 = Some a -> av_size 1 a = UB)
  /\ av_push s1 1 7 = Ok s2
  /\ (exists a, nth_error s2 0 = Some a /\ av_index a 1 = Ok 7)
  /\ (exists a, nth_error s2 1 = Some a /\ av_index a 1 = Ok 0).
Proof.
  exists [Build_avec [5; 0; 0] 0 1]. do 2 eexists. split; [reflexivity|]. split; [reflexivity|].
  split; [intros a H; injection H as <-; reflexivity|]. split; [reflexivity|].
  split; eexists; split; reflexivity.
Qed.
Print Assumptions C33_copy_refuted.

(** * C34 *)
(** Reading and writing; [values] is the template pack, [dyn] marks dynamic
    elements. *)
Theorem C34_construct : forall (T : Type) (eqb : T -> T -> bool) (dyn zero : T) (values xs : list T),
  (forall a b, eqb a b = true <-> a = b) -> length xs = length values ->
  (forall i v x, nth_error values i = Some v -> nth_error xs i = Some x -> v = dyn \/ x = v) ->
  forall i x, nth_error xs i = Some x ->
  ssa_get eqb dyn values (ssa_make eqb dyn values zero xs) i = Ok x.
Proof.
  intros T eqb dyn zero values xs EQ L H i x Hx. unfold ssa_make.
  destruct (assign_all_ok eqb EQ dyn values xs (repeat zero (size_dyn eqb dyn values)) 0) as (_ & G & _).
  - apply repeat_length.
  - lia.
  - intros j v y Hv N Hy. destruct (H j v y Hv Hy); [contradiction|assumption].
  - exact (G i x Hx).
Qed.
Print Assumptions C34_construct.

Theorem C34_read_write : forall (T : Type) (eqb : T -> T -> bool) (dyn : T) (values dv : list T),
  (forall a b, eqb a b = true <-> a = b) -> length dv = length (filter (fun v => eqb v dyn) values) ->
  (forall i, i < length values -> exists x, ssa_get eqb dyn values dv i = Ok x)
  /\ (forall i, length values <= i -> ssa_get eqb dyn values dv i = AssertFail)
  /\ (forall i v, nth_error values i = Some v -> v <> dyn -> ssa_get eqb dyn values dv i = Ok v)
  /\ (forall i x, nth_error values i = Some dyn ->
        exists dv', ssa_set eqb dyn values dv i x = Some dv' /\ length dv' = length dv
        /\ ssa_get eqb dyn values dv' i = Ok x
        /\ forall j, i <> j -> ssa_get eqb dyn values dv' j = ssa_get eqb dyn values dv j).
Proof.
  intros T eqb dyn values dv EQ L. split; [|split; [|split]].
  - intros i H. now apply ssa_get_total.
  - intros i H. unfold ssa_get. now rewrite (proj2 (Nat.ltb_ge _ _) H).
  - intros i v H N. now apply ssa_get_static.
  - intros i x H. unfold ssa_set at 1. rewrite H. unfold is_dyn. rewrite (proj2 (EQ dyn dyn) eq_refl).
    eexists. split; [reflexivity|].
    assert (S : ssa_set eqb dyn values dv i x = Some (list_set dv (dynamic_index eqb dyn values i) x)).
    { unfold ssa_set. rewrite H. unfold is_dyn. now rewrite (proj2 (EQ dyn dyn) eq_refl). }
    destruct (ssa_set_ok eqb dyn values dv i x _ L S) as (A & B & C).
    split; [rewrite A; symmetry; exact L|]. auto.
Qed.
Print Assumptions C34_read_write.

Theorem C34_equality : forall (T : Type) (eqb : T -> T -> bool) (dyn : T) (values l r : list T),
  (forall a b, eqb a b = true <-> a = b) ->
  length l = length (filter (fun v => eqb v dyn) values) ->
  length r = length (filter (fun v => eqb v dyn) values) ->
  (is_equal_array eqb l r = true <->
   forall i, i < length values -> ssa_get eqb dyn values l i = ssa_get eqb dyn values r i).
Proof.
  intros T eqb dyn values l r EQ Ll Lr. rewrite (is_equal_array_ok eqb EQ). split.
  - intros -> i _. reflexivity.
  - intro H. eapply ssa_ext; eassumption.
Qed.
Print Assumptions C34_equality.
Example C34_case :
  let vs := [3; 99; 4; 99] in   (* 99 marks a dynamic element *)
  ssa_make Nat.eqb 99 vs 0 [3; 7; 4; 8] = [7; 8]
  /\ ssa_get Nat.eqb 99 vs [7; 8] 3 = Ok 8 /\ ssa_get Nat.eqb 99 vs [7; 8] 2 = Ok 4
  /\ ssa_set Nat.eqb 99 vs [7; 8] 3 5 = Some [7; 5] /\ ssa_set Nat.eqb 99 vs [7; 8] 2 5 = None.
Proof. vm_compute. auto. Qed.

(** * C35 *)
Local Open Scope Z_scope.
(** For dimensions whose product fits size_t: both ways of indexing give the
    row-major position, a bijection between the multi-indices of the shape and
    0 .. product - 1 that preserves the lexicographical order; other
    multi-indices are rejected. *)
Theorem C35_index_bijection : forall ds, Forall (fun d => 0 <= d) ds -> zprod ds < 2 ^ 64 ->
  (forall is, in_shape ds is -> exists p, get_index true 0 ds is = Ok p /\ 0 <= p < zprod ds
     /\ (ds <> [] -> sub_index 0 ds is = Ok p))
  /\ (forall p, 0 <= p < zprod ds -> exists is, in_shape ds is /\ get_index true 0 ds is = Ok p
      /\ forall is', in_shape ds is' -> get_index true 0 ds is' = Ok p -> is' = is)
  /\ (forall is is' p p', in_shape ds is -> in_shape ds is' ->
        get_index true 0 ds is = Ok p -> get_index true 0 ds is' = Ok p' ->
        (lex_lt is is' <-> p < p'))
  /\ (forall is, Forall (fun i => 0 <= i) is -> ~ in_shape ds is -> get_index true 0 ds is = AssertFail).
Proof.
  intros ds F B. split; [|split; [|split]].
  - intros is H. exists (row_major ds is). split; [apply get_index_ok; [assumption|lia]|].
    split; [now apply row_major_bound|]. intro N. now rewrite sub_index_ok.
  - intros p Hp. destruct (row_major_surj ds p F Hp) as (is & S & R). exists is. split; [assumption|].
    split; [rewrite get_index_ok by (assumption || lia); now rewrite R|].
    intros is' S' E. rewrite get_index_ok in E by (assumption || lia). injection E as E.
    apply row_major_inj with ds; try assumption. congruence.
  - intros is is' p p' H H' E E'. rewrite get_index_ok in E, E' by (assumption || lia).
    injection E as <-. injection E' as <-. now apply row_major_lex.
  - intros is N H. now apply get_index_rejects.
Qed.
Print Assumptions C35_index_bijection.
Theorem C35_size : forall ds, compute_product ds = zprod ds mod 2 ^ 64.
Proof. exact compute_product_mod. Qed.
Print Assumptions C35_size.
Example C35_case : in_shape [2; 3; 4] [1; 2; 3] /\ get_index true 0 [2; 3; 4] [1; 2; 3] = Ok 23
  /\ sub_index 0 [2; 3; 4] [1; 0; 2] = Ok 14 /\ zprod [2; 3; 4] = 24.
Proof. split; [|vm_compute; auto]. repeat constructor; lia. Qed.
(** Finding: a product of dimensions that wraps gives a tensor of size 0 whose
    elements can be addressed. *)
Theorem C35_size_wrap_refuted : exists ds is p, Forall (fun d => 0 <= d < 2 ^ 64) ds
  /\ compute_product ds = 0 /\ get_index true 0 ds is = Ok p /\ 0 <= p.
Proof.
  exists [2 ^ 32; 2 ^ 32], [1; 1], (2 ^ 32 + 1). split; [repeat constructor; lia|]. vm_compute.
  repeat split; discriminate.
Qed.
Print Assumptions C35_size_wrap_refuted.
Local Close Scope Z_scope.

(** * C36 *)
(** Dimensions computed from a nested list are the least that fit it. *)
Theorem C36_dimensions : forall (T : Type) n (il : ndl T n),
  let ds := compute_dimensions n il (repeat 0 n) in
  fits n il ds /\ forall ds', length ds' = n -> fits n il ds' -> Forall2 le ds ds'.
Proof.
  intros T n il ds. destruct (@cdims_ok T n il (repeat 0 n)) as (_ & F & M); [apply repeat_length|].
  split; [exact F|]. intros ds' L F'. apply M; [|assumption]. clear - L.
  revert ds' L. induction n; intros [|d ds'] L; simpl in *; try discriminate; constructor; [lia|]. apply IHn. lia.
Qed.
Print Assumptions C36_dimensions.

(** When all the dimensions but the last coincide (always for rank 1 and 2) the
    element at each multi-index is at its row-major position and missing
    elements are default-initialised. *)
Theorem C36_nested_init : forall (T : Type) (dflt : T) n (il : ndl T (S n)) ds,
  fits (S n) il ds -> (forall j, S j < length ds - 1 -> nth j ds 0 = nth (S j) ds 0) ->
  exists m, tensor_init dflt (S n) il ds = Ok m /\ length m = nprod ds
  /\ forall is, Forall2 (fun d i => i < d) ds is ->
     nth_error m (row_major_n ds is) =
     Some (Some (match nd_get (S n) il is with Some x => x | None => dflt end)).
Proof. intros T dflt n il ds F E. exact (tensor_init_ok dflt n il ds F E). Qed.
Print Assumptions C36_nested_init.

(** The condition is necessary: for any complete nested list with positive
    dimensions, of any rank, initialisation succeeds only if all the dimensions
    but the last coincide; otherwise it runs into undefined behaviour. *)
Theorem C36_nested_init_refuted : forall (T : Type) (dflt : T) n (il : ndl T (S n)) ds,
  full (S n) il ds -> Forall (fun d => 0 < d) ds ->
  (exists j, S j < length ds - 1 /\ nth j ds 0 <> nth (S j) ds 0) ->
  forall m, tensor_init dflt (S n) il ds <> Ok m.
Proof.
  intros T dflt n il ds F P (j & Hj & N) m E. apply N.
  exact (tensor_init_inv dflt n il ds m F P E j Hj).
Qed.
Print Assumptions C36_nested_init_refuted.
Example C36_case :
  fits (T := nat) 3 [[[1; 2; 5]; [3]]; [[4]]] [2; 2; 3]
  /\ tensor_of_list 0 3 ([[[1; 2; 5]; [3]]; [[4]]] : ndl nat 3)
     = Ok ([2; 2; 3], map Some [1; 2; 5; 3; 0; 0; 4; 0; 0; 0; 0; 0])
  /\ full (T := nat) 3 [[[1]]; [[2]]] [2; 1; 1]
  /\ tensor_of_list 0 3 ([[[1]]; [[2]]] : ndl nat 3) = UB
  /\ tensor_of_list 0 3 ([[[1]; [2]]] : ndl nat 3) = UB.
Proof.
  split; [cbn; repeat (constructor; cbn; try lia)|]. split; [vm_compute; reflexivity|].
  split; [cbn; repeat (constructor; cbn; try lia)|]. vm_compute. auto.
Qed.
(** For incomplete lists in fixed dimensions elements may silently be misplaced:
    element (1,0,0) is stored at position 3, the position of (1,1,0). *)
Theorem C36_misplaced_refuted : exists m,
  tensor_init 0 3 ([[[1]]; [[2]]] : ndl nat 3) [3; 2; 1] = Ok m
  /\ nd_get 3 ([[[1]]; [[2]]] : ndl nat 3) [1; 0; 0] = Some 2
  /\ row_major_n [3; 2; 1] [1; 0; 0] = 2 /\ nth_error m 2 = Some (Some 0)
  /\ nth_error m (row_major_n [3; 2; 1] [1; 1; 0]) = Some (Some 2).
Proof. eexists. split; [vm_compute; reflexivity|]. vm_compute. auto. Qed.
Print Assumptions C36_misplaced_refuted.

(** * C64 *)
(** Tensor equality: equal shapes and equal elements at all multi-indices. *)
Theorem C64_tensor_equality : forall (T : Type) (eqb : T -> T -> bool) (dl dr : list Z) (l r : list T),
  (forall a b, eqb a b = true <-> a = b) ->
  Forall (fun d => 0 <= d)%Z dl -> Forall (fun d => 0 <= d)%Z dr ->
  (zprod dl < 2 ^ 64)%Z -> (zprod dr < 2 ^ 64)%Z ->
  Z.of_nat (length l) = zprod dl -> Z.of_nat (length r) = zprod dr ->
  (tensor_equal eqb (dl, l) (dr, r) = true <->
   dl = dr /\ forall is, in_shape dl is -> tensor_at dl l is = tensor_at dr r is).
Proof.
  intros T eqb dl dr l r EQ Fl Fr Bl Br Ll Lr. unfold tensor_equal. cbn [fst snd].
  assert (D : forall a b, dims_equal a b = true <-> a = b).
  { induction a as [|x a IH]; intros [|y b]; simpl; split; intro H; try reflexivity; try discriminate.
    - apply andb_true_iff in H as [H1 H2]. apply Z.eqb_eq in H1 as ->. f_equal. now apply IH.
    - injection H as -> ->. rewrite Z.eqb_refl. now apply IH. }
  assert (E : forall a b, data_equal eqb a b = true <-> a = b).
  { induction a as [|x a IH]; intros [|y b]; simpl; split; intro H; try reflexivity; try discriminate.
    - apply andb_true_iff in H as [H1 H2]. apply EQ in H1 as ->. f_equal. now apply IH.
    - injection H as -> ->. rewrite (proj2 (EQ y y) eq_refl). now apply IH. }
  destruct (length dl =? length dr)%nat eqn:X; cbn [negb].
  - destruct (dims_equal dl dr) eqn:Y; cbn [negb].
    + apply D in Y as <-. rewrite E. split; [intros ->; auto|]. intros [_ H].
      apply list_ext_nth. intro k.
      destruct (Nat.lt_ge_cases k (length l)) as [K|K].
      * destruct (row_major_surj dl (Z.of_nat k) Fl ltac:(lia)) as (is & S & R).
        specialize (H is S). unfold tensor_at in H. rewrite get_index_ok in H by (assumption || lia).
        cbn [bind] in H. rewrite R, Nat2Z.id in H.
        destruct (nth_error l k) eqn:F1; [|apply nth_error_None in F1; lia].
        destruct (nth_error r k) eqn:F2; [|apply nth_error_None in F2; lia]. congruence.
      * rewrite (proj2 (nth_error_None l k)), (proj2 (nth_error_None r k)) by lia. reflexivity.
    + split; [discriminate|]. intros [H _]. apply D in H. congruence.
  - split; [discriminate|]. intros [H _]. subst. rewrite Nat.eqb_refl in X. discriminate.
Qed.
Print Assumptions C64_tensor_equality.
Example C64_case : tensor_equal Nat.eqb ([2; 3]%Z, [1; 2; 3; 4; 5; 6]) ([3; 2]%Z, [1; 2; 3; 4; 5; 6]) = false
  /\ tensor_equal Nat.eqb ([2; 3]%Z, [1; 2; 3; 4; 5; 6]) ([2; 3]%Z, [1; 2; 3; 4; 5; 6]) = true.
Proof. vm_compute. auto. Qed.

(** * C65 *)
(** Ids of a random access container: emplace returns a fresh id denoting the
    new element and keeps all the other ids; id_find returns the first id with
    the value or id_end; the ids of id_range are exactly the valid ones. *)
Theorem C65_ids : forall (A : Type) (eqb : A -> A -> bool) (c : list A),
  (forall a b, eqb a b = true <-> a = b) ->
  (forall id, (exists x, id_at c id = Ok x) <-> In id (id_range c))
  /\ (forall id, ~ In id (id_range c) -> id_at c id = AssertFail)
  /\ (forall x, let '(c', (id, b)) := id_emplace c x in
        b = true /\ ~ In id (id_range c) /\ id_at c' id = Ok x
        /\ forall j y, id_at c j = Ok y -> id_at c' j = Ok y)
  /\ (forall x, ~ In x c -> id_find eqb c x = id_end c)
  /\ (forall x, In x c -> id_at c (id_find eqb c x) = Ok x
        /\ forall j, id_at c j = Ok x -> (id_find eqb c x <= j)%Z).
Proof.
  intros A eqb c EQ.
  assert (AT : forall (c : list A) id x, id_at c id = Ok x <-> (0 <= id)%Z /\ nth_error c (Z.to_nat id) = Some x).
  { intros c0 id x. unfold id_at, id_end. destruct (Z.leb_spec 0 id), (Z.ltb_spec id (Z.of_nat (length c0))); cbn [andb assert_then].
    - destruct (nth_error c0 (Z.to_nat id)); split; intro H1; try discriminate.
      + injection H1 as ->. auto.
      + destruct H1 as [_ H1]. now injection H1 as ->.
      + destruct H1; discriminate.
    - split; [discriminate|]. intros [_ H1]. assert (Z.to_nat id < length c0) by (apply nth_error_Some; congruence). lia.
    - split; [discriminate|]. lia.
    - split; [discriminate|]. lia. }
  assert (RG : forall (c : list A) id, In id (id_range c) <-> (0 <= id < Z.of_nat (length c))%Z).
  { intros c0 id. unfold id_range. rewrite in_map_iff. split.
    - intros (k & <- & H). apply in_seq in H. lia.
    - intro H. exists (Z.to_nat id). split; [lia|]. apply in_seq. lia. }
  assert (FP : forall (c : list A) x, In x c -> nth_error c (find_pos eqb c x) = Some x
             /\ forall j, nth_error c j = Some x -> find_pos eqb c x <= j).
  { induction c0 as [|y c0 IH]; intros x H; [destruct H|]. simpl. destruct (eqb y x) eqn:X.
    - apply EQ in X as ->. split; [reflexivity|]. intros. lia.
    - destruct H as [->|H]; [rewrite (proj2 (EQ x x) eq_refl) in X; discriminate|].
      destruct (IH x H) as [I1 I2]. split; [exact I1|]. intros [|j] Hj; simpl in Hj.
      + injection Hj as ->. rewrite (proj2 (EQ x x) eq_refl) in X. discriminate.
      + apply I2 in Hj. lia. }
  split; [|split; [|split; [|split]]].
  - intro id. rewrite RG. split.
    + intros (x & H). apply AT in H as [H1 H2]. assert (Z.to_nat id < length c) by (apply nth_error_Some; congruence). lia.
    + intro H. destruct (nth_error c (Z.to_nat id)) as [x|] eqn:X; [|apply nth_error_None in X; lia].
      exists x. apply AT. split; [lia|assumption].
  - intros id H. rewrite RG in H. unfold id_at, id_end.
    destruct (Z.leb_spec 0 id), (Z.ltb_spec id (Z.of_nat (length c))); cbn [andb assert_then]; try reflexivity. lia.
  - intro x. unfold id_emplace. rewrite app_length. cbn [length]. split; [reflexivity|].
    replace (length c + 1 - 1) with (length c) by lia. split; [rewrite RG; lia|]. split.
    + apply AT. split; [lia|]. rewrite Nat2Z.id, nth_error_app2 by lia. now rewrite Nat.sub_diag.
    + intros j y H. apply AT in H as [H1 H2]. apply AT. split; [assumption|].
      rewrite nth_error_app1; [assumption|]. apply nth_error_Some. congruence.
  - intros x H. unfold id_find, id_end. f_equal. induction c as [|y c IH]; [reflexivity|]. simpl.
    destruct (eqb y x) eqn:X; [apply EQ in X as ->; exfalso; apply H; now left|].
    f_equal. apply IH. intro I. apply H. now right.
  - intros x H. destruct (FP c x H) as [F1 F2]. unfold id_find. split.
    + apply AT. split; [lia|]. now rewrite Nat2Z.id.
    + intros j Hj. apply AT in Hj as [J1 J2]. apply F2 in J2. lia.
Qed.
Print Assumptions C65_ids.
(** Erasing by id shifts the later ids; erasing by value removes exactly the
    equal elements and keeps the order of the others. *)
Theorem C65_erase : forall (A : Type) (eqb : A -> A -> bool) (c : list A),
  (forall a b, eqb a b = true <-> a = b) ->
  (forall id x, id_at c id = Ok x -> exists c', id_erase c id = Ok c'
      /\ (forall j y, id_at c j = Ok y -> (j < id)%Z -> id_at c' j = Ok y)
      /\ (forall j y, id_at c j = Ok y -> (id < j)%Z -> id_at c' (j - 1) = Ok y)
      /\ length c = S (length c'))
  /\ (forall x y, In y (cont_erase eqb c x) <-> In y c /\ y <> x).
Proof.
  intros A eqb c EQ.
  assert (AT : forall (c : list A) id x, id_at c id = Ok x <-> (0 <= id)%Z /\ nth_error c (Z.to_nat id) = Some x).
  { intros c0 id x. unfold id_at, id_end. destruct (Z.leb_spec 0 id), (Z.ltb_spec id (Z.of_nat (length c0))); cbn [andb assert_then].
    - destruct (nth_error c0 (Z.to_nat id)); split; intro H1; try discriminate.
      + injection H1 as ->. auto.
      + destruct H1 as [_ H1]. now injection H1 as ->.
      + destruct H1; discriminate.
    - split; [discriminate|]. intros [_ H1]. assert (Z.to_nat id < length c0) by (apply nth_error_Some; congruence). lia.
    - split; [discriminate|]. lia.
    - split; [discriminate|]. lia. }
  split.
  - intros id x H. apply AT in H as [H1 H2].
    assert (L : Z.to_nat id < length c) by (apply nth_error_Some; congruence).
    unfold id_erase, id_end. rewrite (proj2 (Z.leb_le 0 id)), (proj2 (Z.leb_le id _)) by lia. cbn [andb assert_then].
    rewrite (proj2 (Z.eqb_neq id _)) by lia. eexists. split; [reflexivity|].
    assert (Lf : length (firstn (Z.to_nat id) c) = Z.to_nat id) by (rewrite firstn_length; lia).
    split; [|split].
    + intros j y Hj Lj. apply AT in Hj as [J1 J2]. apply AT. split; [assumption|].
      rewrite nth_error_app1 by lia. rewrite nth_error_firstn_lt by lia. assumption.
    + intros j y Hj Lj. apply AT in Hj as [J1 J2]. apply AT. split; [lia|].
      rewrite nth_error_app2 by lia. rewrite nth_error_skipn_add. rewrite <- J2. f_equal. lia.
    + rewrite app_length, Lf, skipn_length. lia.
  - intros x y. unfold cont_erase. rewrite filter_In, negb_true_iff.
    split; intros [H1 H2]; (split; [assumption|]).
    + intros ->. rewrite (proj2 (EQ x x) eq_refl) in H2. discriminate.
    + destruct (eqb y x) eqn:X; [apply EQ in X; contradiction|reflexivity].
Qed.
Print Assumptions C65_erase.
Example C65_case : id_emplace [5; 6] 7 = ([5; 6; 7], (2%Z, true)) /\ id_at [5; 6; 7] 2 = Ok 7
  /\ id_find Nat.eqb [5; 6; 7] 6 = 1%Z /\ id_erase [5; 6; 7] 1 = Ok [5; 7] /\ cont_erase Nat.eqb [5; 6; 5] 5 = [6].
Proof. vm_compute. auto. Qed.
