(** C149: the format that flushes after each unit. *)
From Coq Require Import ZArith List Bool Lia.
From Verif Require Import Outcome DeviceModel DeviceProofs BufferProofs ShortModel ShortProofs PropShort UnitFlushModel UnitFlushProofs.
Import ListNotations.
Local Open Scope Z_scope.

(** A device that keeps a list of the calls. *)
Definition log_step (d : list bop) (o : bop) : outcome (list bop * Z) := Ok (d ++ [o], lenZ (bop_data o)).
Definition is_flush (o : bop) : bool := match o with BFlush => true | _ => false end.

Lemma whole_all os : Forall2 whole os (map (fun o => lenZ (bop_data o)) os).
Proof. induction os as [|[[c|xs]|] os IH]; cbn [map]; constructor; auto; reflexivity. Qed.
Lemma log_run os : forall d, drun log_step d os = Ok (d ++ os, map (fun o => lenZ (bop_data o)) os).
Proof.
  induction os as [|o os IH]; intros d; cbn [drun map]; [rewrite app_nil_r; reflexivity|].
  unfold log_step at 1. cbn [bind]. rewrite IH. cbn [bind]. rewrite <- app_assoc. reflexivity.
Qed.
Lemma log_ops l : uwrites log_step l [] = Ok (unit_ops (flat_map units l), true).
Proof. apply (all_well log_step l [] _ _ (log_run _ [])). apply whole_all. Qed.

(** The calls that are made for any arguments: the bytes are those of the arguments in their order; there is one flush for each argument of
    every level; the last call is a flush; a block is never written without a flush in front of it, unless it is the first call. *)
Theorem C149_calls : forall l, exists log, uwrites log_step l [] = Ok (log, true) /\
  b_written log = flat_map udata l /\
  length (filter is_flush log) = list_sum (map unodes l) /\
  (l <> [] -> exists log', log = log' ++ [BFlush]) /\
  (forall pre xs post, log = pre ++ BWrite (WSpan xs) :: post -> pre = [] \/ exists pre', pre = pre' ++ [BFlush]).
Proof.
  intros l. eexists. split; [apply log_ops|]. split; [rewrite b_written_units; apply units_data|]. split; [|split].
  - rewrite <- units_count. generalize (flat_map units l) as us. induction us as [|ws us IH]; [reflexivity|].
    cbn [unit_ops flat_map length]. fold (unit_ops us). rewrite !filter_app, !app_length, IH. cbn.
    replace (filter is_flush (map BWrite ws)) with (@nil bop) by (induction ws; auto). reflexivity.
  - intros NE. destruct (flat_map units l) as [|ws us] eqn:E using rev_ind.
    + destruct l as [|a l]; [congruence|]. cbn in E. apply app_eq_nil in E. destruct E as [E _]. destruct a; cbn in E; try discriminate.
      apply app_eq_nil in E. destruct E. discriminate.
    + rewrite unit_ops_app. cbn [unit_ops flat_map]. rewrite app_nil_r, app_assoc. eauto.
  - intros pre xs post E. destruct (last_flush pre) as (a & c & -> & X).
    destruct (tail_simple _ (units_simple l) a (c ++ [WSpan xs]) post) as (ws & r & Sw & W); auto.
    { rewrite E, map_app, <- !app_assoc. reflexivity. }
    destruct Sw as [(w & ->)|Fc].
    + destruct c as [|v [|v2 c]]; cbn in W; try discriminate. cbn [map]. rewrite app_nil_r. exact X.
    + exfalso. rewrite W in Fc. rewrite Forall_forall in Fc. destruct (Fc (WSpan xs)) as (k & K); [|discriminate].
      apply in_or_app. left. apply in_or_app. right. left. reflexivity.
Qed.
Print Assumptions C149_calls.

(* a tuple of a number (as text) and a character, then a range with its size and two repetitions *)
Definition case_args : list uarg :=
  [UNode [UOne (WSpan [49; 50]); UOne (WChar 120)]; UNode [UNode [UOne (WSpan [50])]; URepeat 45 2; URepeat 46 1]].
Example C149_case_calls :
  uwrites log_step case_args [] = Ok
    ([BWrite (WSpan [49; 50]); BFlush; BWrite (WChar 120); BFlush; BFlush;
      BWrite (WSpan [50]); BFlush; BFlush; BWrite (WChar 45); BWrite (WChar 45); BFlush; BWrite (WChar 46); BFlush; BFlush], true) /\
  list_sum (map unodes case_args) = 8%nat.
Proof. split; reflexivity. Qed.

(** Through a buffer of any size over any device: writing succeeds, and the device has been given exactly the bytes of the arguments, with nothing
    kept back in the buffer. There is no exception for blocks that end at the end of the buffer (the defect of C24): it is not met. *)
Theorem C149_on_device : forall D (dwrite : D -> list Z -> D * Z) d0 n l, (0 < n)%nat -> Z.of_nat n < 2 ^ 64 ->
  exists b blocks, uwrites (sw_step dwrite) l (sw_open n d0) = Ok (b, true) /\ sw_pos b = 0 /\
    concat blocks = flat_map udata l /\ sw_dev b = fold_left (fun d p => fst (dwrite d p)) blocks d0.
Proof.
  intros D dwrite d0 n l H1 H2.
  assert (RR : forall os d, drun (sw_step dwrite) d os = sw_run dwrite d os) by reflexivity.
  destruct l as [|a l]; [exists (sw_open n d0), []; auto|]. destruct (C149_calls (a :: l)) as (log & Lg & W & _ & La & _).
  rewrite log_ops in Lg. injection Lg as Lg. cbn [flat_map] in Lg. destruct La as (log' & La); [discriminate|].
  assert (NH : ~ boundary_hit (Z.of_nat n) log') by (eapply no_hit_prefix; [apply (units_simple (a :: l))|cbn [flat_map]; rewrite Lg, La; reflexivity]).
  destruct (C146_writer D dwrite d0 n log' H1 H2 NH) as (b & blocks & R & C & G). exists (sw_overflow dwrite b), blocks.
  split; [|split; [reflexivity|split; [|exact G]]].
  - apply (all_well (sw_step dwrite) (a :: l) _ _ (map (fun o => lenZ (bop_data o)) log));
      change (unit_ops (flat_map units (a :: l))) with (unit_ops (units a ++ flat_map units l)); rewrite Lg; [|apply whole_all].
    rewrite La, drun_app, RR, R. cbn [bind drun sw_step]. rewrite map_app. reflexivity.
  - rewrite C, <- W, La, b_written_app. unfold b_written at 3. cbn. rewrite app_nil_r. reflexivity.
Qed.
Print Assumptions C149_on_device.

(* Through a buffer of 3 characters to a device that keeps what it is given. *)
Example C149_case_on_device :
  exists b, uwrites (sw_step (fun d xs => (d ++ xs, lenZ xs))) case_args (sw_open 3 []) = Ok (b, true) /\
    sw_dev b = [49; 50; 120; 50; 45; 45; 46] /\ flat_map udata case_args = [49; 50; 120; 50; 45; 45; 46].
Proof. eexists. split; [vm_compute; reflexivity|]. split; reflexivity. Qed.

(** Stopped after any of the calls: of what was written, all is on the device except for less than a buffer full from the end of the
    argument being written: one block, or repeated characters. *)
Theorem C149_stopped : forall n l log pre post, (0 < n)%nat -> Z.of_nat n < 2 ^ 64 -> uwrites log_step l [] = Ok (log, true) -> log = pre ++ post ->
  exists b ns done ws kept lost, b_run (b_open n) pre = Ok (b, ns) /\
    pre = done ++ map BWrite ws /\ (done = [] \/ exists done', done = done' ++ [BFlush]) /\
    ((length ws <= 1)%nat \/ forall w, In w ws -> exists c, w = WChar c) /\
    b_written (map BWrite ws) = kept ++ lost /\ b_out b = b_written done ++ kept /\ (length lost < n)%nat.
Proof.
  intros n l log pre post H1 H2 Lg E. rewrite log_ops in Lg. injection Lg as <-. pose proof (units_simple l) as F.
  destruct (last_flush pre) as (a & c & -> & X). rewrite <- app_assoc in E.
  destruct (tail_simple _ F a c post E X) as (ws & r & Sw & W).
  destruct (b_prefix n _ (a ++ map BWrite c) post H1 H2 F) as (b & R & Okb & Ob); [rewrite E, app_assoc; reflexivity|].
  destruct (b_prefix n _ a (map BWrite c ++ post) H1 H2 F E) as (ba & Ra & Oka & Oa).
  assert (Pa : b_out ba = b_written a).
  { destruct X as [->|(a' & ->)].
    - cbn in Ra. injection Ra as <-. reflexivity.
    - rewrite b_run_app in Ra. destruct (b_run (b_open n) a') as [[b' n']| | | |]; cbn [bind b_run b_step] in Ra; try discriminate.
      injection Ra as <- _. rewrite <- Oa. unfold b_flush, b_overflow. cbn [b_out b_pos b_buf]. change (Z.to_nat 0) with O. rewrite firstn_O, app_nil_r. reflexivity. }
  rewrite b_run_app, Ra in R. cbn [bind] in R. destruct (b_run ba (map BWrite c)) as [[b2 n2]| | | |] eqn:Rc; cbn [bind] in R; try discriminate.
  injection R as <- Rn. destruct (b_run_grows _ _ _ _ Rc) as (u & U). unfold b_flush, b_overflow in Ob. cbn [b_out] in Ob.
  rewrite b_written_app, U, Pa, <- app_assoc in Ob. apply app_inv_head in Ob.
  exists b2, (replies_of a ++ n2), a, c, u, (firstn (Z.to_nat (b_pos b2)) (b_buf b2)).
  split; [rewrite b_run_app, Ra; cbn [bind]; rewrite Rc; reflexivity|]. split; [reflexivity|]. split; [exact X|]. split.
  { destruct Sw as [(w & Ew)|Fc].
    - left. rewrite Ew in W. apply (f_equal (@length wop)) in W. rewrite app_length in W. cbn in W. lia.
    - right. intros w I. rewrite W in Fc. rewrite Forall_forall in Fc. apply Fc. apply in_or_app. auto. }
  split; [symmetry; exact Ob|]. split; [rewrite U, Pa; reflexivity|].
  destruct Okb as [L P]. rewrite firstn_length. unfold lenZ in L. lia.
Qed.
Print Assumptions C149_stopped.

(* Stopped in the second repetition: its first character is in the buffer, everything before is on the device. *)
Example C149_case_stopped :
  exists b ns, b_run (b_open 3) [BWrite (WSpan [49; 50]); BFlush; BWrite (WChar 120); BFlush; BFlush;
      BWrite (WSpan [50]); BFlush; BFlush; BWrite (WChar 45)] = Ok (b, ns) /\ b_out b = [49; 50; 120; 50].
Proof. eexists _, _. split; [vm_compute; reflexivity|]. reflexivity. Qed.

(** Over any device, of arguments without repetitions: writing succeeds exactly when the device takes every byte and every block whole; a write that
    is not taken whole is the last call, not followed by a flush. *)
Theorem C149_any_device : forall D (dstep : D -> bop -> outcome (D * Z)) l log d d' ok, forallb norep l = true ->
  uwrites log_step l [] = Ok (log, true) -> uwrites dstep l d = Ok (d', ok) ->
  exists pre post ns, log = pre ++ post /\ drun dstep d pre = Ok (d', ns) /\
    (if ok : bool then post = [] /\ Forall2 whole pre ns
     else exists pre' w ns' n, pre = pre' ++ [BWrite w] /\ ns = ns' ++ [n] /\ Forall2 whole pre' ns' /\ n <> wop_size w).
Proof.
  intros D dstep l log d d' ok NR Lg H. rewrite log_ops in Lg. injection Lg as <-. exact (all_stop dstep l NR d d' ok H).
Qed.
Print Assumptions C149_any_device.

(* A device with room for 3 characters; flushes are counted. *)
Definition room (d : list Z * nat) (o : bop) : outcome (list Z * nat * Z) :=
  match o with
  | BWrite w => let (d1, n) := cap_write 3 (fst d) (wop_data w) in Ok (d1, snd d, n)
  | BFlush => Ok (fst d, S (snd d), 0)
  end.
Example C149_case_any :
  forallb norep [UOne (WSpan [1; 2]); UNode [UOne (WSpan [3; 4]); UOne (WChar 5)]] = true /\
  uwrites room [UOne (WSpan [1; 2]); UNode [UOne (WSpan [3; 4]); UOne (WChar 5)]] ([], O) = Ok ([1; 2; 3], 1%nat, false) /\
  uwrites room [UOne (WSpan [1; 2]); UNode [UOne (WChar 5)]] ([], O) = Ok ([1; 2; 5], 3%nat, true).
Proof. repeat split. Qed.

(** Finding: with repetitions success does not mean that the device took the bytes. *)
Theorem C149_repeat_refuted : ~ (forall l d', uwrites room l ([], O) = Ok (d', true) -> fst d' = flat_map udata l).
Proof. intros H. specialize (H [URepeat 45 5; URepeat 46 2] _ eq_refl). vm_compute in H. discriminate. Qed.
Print Assumptions C149_repeat_refuted.

Lemma plain_log l : pwrites log_step l [] = Ok (flat_map pops l, true).
Proof. apply (pall_well log_step l [] _ _ (log_run _ [])). apply whole_all. Qed.

(** The format changes nothing but the flushes: without it the same calls are made to write, and only the flushes that are asked for. *)
Theorem C149_only_flushes : forall l, exists log plain, uwrites log_step l [] = Ok (log, true) /\ pwrites log_step l [] = Ok (plain, true) /\
  filter (fun o => negb (is_flush o)) log = filter (fun o => negb (is_flush o)) plain /\
  length (filter is_flush plain) = list_sum (map uflushes l).
Proof.
  intros l. eexists _, _. split; [apply log_ops|]. split; [apply plain_log|].
  set (g := fun o => negb (is_flush o)).
  assert (W : forall ws, filter g (map BWrite ws) = map BWrite ws /\ filter is_flush (map BWrite ws) = []).
  { induction ws as [|w ws [I1 I2]]; [auto|]. cbn. rewrite I1, I2. auto. }
  assert (X : forall l, Forall (fun a => filter g (unit_ops (units a)) = filter g (pops a) /\ length (filter is_flush (pops a)) = uflushes a) l ->
    filter g (unit_ops (flat_map units l)) = filter g (flat_map pops l) /\ length (filter is_flush (flat_map pops l)) = list_sum (map uflushes l)).
  { induction 1 as [|a k [H1 H2] F [I1 I2]]; cbn [flat_map map]; [auto|]. rewrite unit_ops_app, !filter_app, app_length, H1, I1, H2, I2. auto. }
  apply X. clear -X W. induction l as [|a l IH]; constructor; auto. clear -X W. induction a using uarg_rect'.
  - split; reflexivity.
  - cbn [units pops unit_ops flat_map uflushes]. rewrite app_nil_r, filter_app. destruct (W (repeat (WChar c) n)) as [-> ->]. cbn. rewrite app_nil_r. auto.
  - split; reflexivity.
  - cbn [units pops uflushes]. destruct (X l H) as [I1 I2]. rewrite unit_ops_app, filter_app, I1. cbn. rewrite app_nil_r. auto.
Qed.
Print Assumptions C149_only_flushes.

Example C149_case_only :
  pwrites log_step (UFlush :: case_args) [] = Ok
    ([BFlush; BWrite (WSpan [49; 50]); BWrite (WChar 120); BWrite (WSpan [50]); BWrite (WChar 45); BWrite (WChar 45); BWrite (WChar 46)], true).
Proof. reflexivity. Qed.

(** Failure without the format: as with it. *)
Theorem C149_plain_any_device : forall D (dstep : D -> bop -> outcome (D * Z)) l log d d' ok, forallb norep l = true ->
  pwrites log_step l [] = Ok (log, true) -> pwrites dstep l d = Ok (d', ok) ->
  exists pre post ns, log = pre ++ post /\ drun dstep d pre = Ok (d', ns) /\
    (if ok : bool then post = [] /\ Forall2 whole pre ns
     else exists pre' w ns' n, pre = pre' ++ [BWrite w] /\ ns = ns' ++ [n] /\ Forall2 whole pre' ns' /\ n <> wop_size w).
Proof.
  intros D dstep l log d d' ok NR Lg H. rewrite plain_log in Lg. injection Lg as <-. exact (pall_stop dstep l NR d d' ok H).
Qed.
Print Assumptions C149_plain_any_device.

Example C149_case_plain :
  pwrites room [UOne (WSpan [1; 2]); UNode [UOne (WSpan [3; 4]); UOne (WChar 5)]] ([], O) = Ok ([1; 2; 3], O, false).
Proof. reflexivity. Qed.

(** Without the format: bytes stay in the buffer, and the defect of C24 is met: a character is on the device twice after the final flush. *)
Theorem C149_without_refuted : exists n l b, pwrites (sw_step (fun d xs => (d ++ xs, lenZ xs))) l (sw_open n []) = Ok (b, true) /\
  flat_map udata l = [1; 2; 3; 4] /\ sw_dev b = [1; 2; 3; 4] /\ sw_dev (sw_overflow (fun d xs => (d ++ xs, lenZ xs)) b) = [1; 2; 3; 4; 1] /\
  exists b', pwrites (sw_step (fun d xs => (d ++ xs, lenZ xs))) [UOne (WChar 1); UOne (WSpan [2; 3])] (sw_open n []) = Ok (b', true) /\ sw_dev b' = [].
Proof.
  exists 4%nat, [UOne (WChar 1); UOne (WSpan [2; 3; 4])]. eexists. split; [vm_compute; reflexivity|]. split; [reflexivity|]. split; [reflexivity|].
  split; [reflexivity|]. eexists. split; [vm_compute; reflexivity|]. reflexivity.
Qed.
Print Assumptions C149_without_refuted.
