(** Input/output devices and their utilities: properties C22, C23, C24, C68-C72. *)
From Coq Require Import ZArith List Bool Lia.
From Verif Require Import Outcome ListLemmas DeviceModel DeviceProofs BufferProofs.
Import ListNotations.
Local Open Scope Z_scope.

(** ** C22: memory output *)
Theorem C22_longest_prefix l os :
  lenZ l < 2 ^ 64 ->
  exists m ns, mem_writes (mem_open l) os = Ok (m, ns)
    /\ m_data m = firstn (length l) (written os) ++ skipn (length (written os)) l
    /\ length ns = length os
    /\ sumZ ns = Z.min (lenZ l) (lenZ (written os))
    /\ m_ptr m = sumZ ns /\ mem_eof m = false.
Proof.
  intro Hl. destruct (mem_writes_after l Hl os []) as (ns & E & L & S).
  rewrite mem_open_after. exists (mem_after l ([] ++ written os)), ns.
  split; [exact E|]. split; [reflexivity|]. split; [exact L|].
  rewrite S. cbn [app]. change (lenZ (@nil Z)) with 0. pose proof (lenZ_nonneg l).
  replace (Z.min (lenZ l) 0) with 0 by lia. rewrite Z.sub_0_r. split; [reflexivity|]. split; [reflexivity|].
  unfold mem_eof. rewrite mem_after_end. cbn [m_ptr mem_after]. apply Z.ltb_ge. lia.
Qed.
(** Every single write stores as much as there is room for. *)
Theorem C22_each_count l os o :
  lenZ l < 2 ^ 64 ->
  exists m ns, mem_writes (mem_open l) (os ++ [o]) = Ok (m, ns)
    /\ last ns 0 = Z.min (lenZ (wop_data o)) (Z.max 0 (lenZ l - lenZ (written os))).
Proof.
  intro Hl.
  assert (G : forall D, exists ns, mem_writes (mem_after l D) (os ++ [o])
      = Ok (mem_after l (D ++ written os ++ wop_data o),
            ns ++ [Z.min (lenZ (wop_data o)) (Z.max 0 (lenZ l - lenZ (D ++ written os)))])).
  { induction os as [|x os IH]; intro D.
    - exists []. cbn [app mem_writes]. rewrite mem_wop_after by exact Hl. cbn [bind written map concat app].
      do 3 f_equal. rewrite !lenZ_app. change (lenZ (@nil Z)) with 0.
      pose proof (lenZ_nonneg (wop_data o)). pose proof (lenZ_nonneg D). pose proof (lenZ_nonneg l). lia.
    - destruct (IH (D ++ wop_data x)) as (ns & E).
      eexists (_ :: ns). cbn [app mem_writes]. rewrite mem_wop_after by exact Hl. cbn [bind].
      rewrite E. cbn [bind]. unfold written. cbn [map concat]. rewrite <- !app_assoc. reflexivity. }
  destruct (G []) as (ns & E). rewrite mem_open_after. do 2 eexists. split; [exact E|].
  rewrite last_last. reflexivity.
Qed.
Example C22_case :
  mem_writes (mem_open [9; 9; 9; 9]) [WSpan [1; 2]; WChar 3; WSpan [4; 5; 6]; WChar 7]
  = Ok ({| m_data := [1; 2; 3; 4]; m_ptr := 4 |}, [2; 1; 1; 0]).
Proof. reflexivity. Qed.

(** ** C23: memory input *)
Theorem C23_in_order l os rest outs :
  lenZ l < 2 ^ 64 -> tape_reads l os = Some (rest, outs) ->
  exists m, mem_reads (mem_open l) os = Ok (m, outs)
    /\ l = concat outs ++ rest /\ mem_input m = rest /\ m_data m = l /\ mem_eof m = false.
Proof.
  intros H T. destruct (mem_reads_tape os [] l rest outs H T) as (a & R & Ea & El).
  exists (mem_tape (a, rest)). split; [exact R|]. split; [exact El|].
  split; [apply mem_input_tape|]. split; [|apply mem_eof_tape].
  cbn [mem_tape m_data fst snd app] in *. now rewrite Ea.
Qed.
Example C23_case : tape_reads [1; 2; 3; 4; 5] [RGet; RRead 2; RGet; RRead 7; RRead 1]
  = Some ([], [[1]; [2; 3]; [4]; [5]; []])
  /\ mem_reads (mem_open [1; 2; 3; 4; 5]) [RGet; RRead 2; RGet; RRead 7; RRead 1]
  = Ok ({| m_data := [1; 2; 3; 4; 5]; m_ptr := 5 |}, [[1]; [2; 3]; [4]; [5]; []]).
Proof. split; reflexivity. Qed.
(** End of file is reported exactly after a get with nothing left, which returns zero. *)
Theorem C23_get_at_end l os outs :
  lenZ l < 2 ^ 64 -> tape_reads l os = Some ([], outs) ->
  exists m, mem_reads (mem_open l) (os ++ [RGet]) = Ok (m, outs ++ [[0]]) /\ mem_eof m = true.
Proof.
  intros H T. destruct (mem_reads_tape os [] l [] outs H T) as (a & R & _ & _).
  destruct (mem_get (mem_tape (a, []))) as [m c] eqn:G. pose proof (mem_get_nil a) as K. rewrite G in K.
  destruct K as (-> & K & _). exists m. split; [|exact K].
  change (mem_open l) with (mem_tape ([], l)).
  clear H T K. generalize dependent (mem_tape ([], l)). revert outs.
  induction os as [|o os IH]; intros outs m0 R; cbn [mem_reads app] in *.
  - injection R as -> <-. cbn [mem_rop]. rewrite G. reflexivity.
  - apply bind_Ok in R. destruct R as ([m1 x] & -> & R). cbn [bind].
    apply bind_Ok in R. destruct R as ([m2 xs] & R & E). injection E as -> <-.
    rewrite (IH _ _ R). reflexivity.
Qed.
(** Finding: a block read after that runs outside of the buffer. *)
Theorem C23_read_after_end_refuted l n :
  lenZ l < 2 ^ 63 -> (0 < n)%nat ->
  mem_reads (mem_open l) [RRead (length l); RGet; RRead n] = UB.
Proof.
  intros H Hn. cbn [mem_reads mem_rop]. change (mem_open l) with (mem_tape ([], l)).
  rewrite mem_read_tape by (cbn [app]; lia). cbn [bind]. rewrite firstn_all, skipn_all. cbn [app].
  pose proof (mem_get_nil l) as K. destruct (mem_get (mem_tape (l, []))) as [m c]. cbn [bind].
  destruct K as (_ & _ & K). rewrite K by assumption. reflexivity.
Qed.

(** ** C24: buffered output *)
Theorem C24_exact_iff n os : (0 < n)%nat -> Z.of_nat n < 2 ^ 64 ->
  exists b, b_run (b_open n) os = Ok (b, map (fun o => lenZ (bop_data o)) os)
    /\ (b_out (b_flush b) = b_written os <-> ~ boundary_hit (Z.of_nat n) os)
    /\ (boundary_hit (Z.of_nat n) os -> lenZ (b_written os) < lenZ (b_out (b_flush b))).
Proof. exact (buffered_writer n os). Qed.
(** What the device gets before the flush is a prefix of the data, and fewer than a buffer is held back. *)
Theorem C24_prefix_before_flush n os : (0 < n)%nat -> Z.of_nat n < 2 ^ 64 ->
  ~ boundary_hit (Z.of_nat n) os ->
  exists b rest, b_run (b_open n) os = Ok (b, map (fun o => lenZ (bop_data o)) os)
    /\ b_written os = b_out b ++ rest /\ (length rest < n)%nat.
Proof.
  intros H1 H2 NB. destruct (b_open_ok n H1) as [Ok1 L0].
  destruct (w_run (Z.of_nat n) ltac:(lia) os (b_open n) Ok1) as (b & R & (Lb & P) & Le & K).
  specialize (K 0 eq_refl). pose proof (hits_spec (Z.of_nat n) ltac:(lia) os 0) as HS.
  fold (boundary_hit (Z.of_nat n) os) in HS.
  destruct (hits (Z.of_nat n) 0 os); [exfalso; apply NB; now apply HS|].
  rewrite L0 in K. cbn [app] in K. exists b, (firstn (Z.to_nat (b_pos b)) (b_buf b)).
  split; [exact R|]. split; [now rewrite <- K|]. rewrite firstn_length. lia.
Qed.
(** Without block writes there is nothing to avoid. *)
Theorem C24_characters_exact n os : (0 < n)%nat -> Z.of_nat n < 2 ^ 64 ->
  (forall xs, ~ In (BWrite (WSpan xs)) os) ->
  exists b, b_run (b_open n) os = Ok (b, map (fun o => lenZ (bop_data o)) os)
    /\ b_out (b_flush b) = b_written os.
Proof.
  intros H1 H2 NS. destruct (buffered_writer n os H1 H2) as (b & R & I & _).
  exists b. split; [exact R|]. apply I. intros (pre & xs & post & -> & _).
  apply (NS xs), in_or_app. right. now left.
Qed.
Theorem C24_exact_fill_refuted :
  exists n os b ns, b_run (b_open n) os = Ok (b, ns) /\ b_written os = [1; 2; 3; 4]
    /\ b_out (b_flush b) = [1; 2; 3; 4; 1; 2].
Proof.
  exists 4%nat, [BWrite (WSpan [1; 2]); BWrite (WSpan [3; 4])].
  do 2 eexists. split; [reflexivity|]. split; reflexivity.
Qed.
Example C24_case :
  let os := [BWrite (WSpan [1; 2; 3]); BWrite (WChar 4); BWrite (WSpan [5; 6; 7; 8]);
             BWrite (WSpan [9; 10; 11; 12; 13; 14; 15; 16; 17]); BFlush; BWrite (WSpan [18; 19])] in
  hits 4 0 os = false /\
  match b_run (b_open 4) os with
  | Ok (b, _) => b_out b = map Z.of_nat (seq 1 17) /\ b_out (b_flush b) = map Z.of_nat (seq 1 19)
  | _ => False
  end.
Proof. vm_compute. auto. Qed.

(** ** C68: string device *)
Theorem C68_tape os t1 xs l :
  lenZ l + lenZ (s_written os) < 2 ^ 63 ->
  tape_run ([], l) os = Some (t1, xs) ->
  exists d, s_run (s_open false l) os = Ok (d, xs)
    /\ s_str d = fst t1 ++ snd t1 /\ s_pos d = lenZ (fst t1) /\ s_eof d = false.
Proof.
  intros H R. exists (s_tape t1). split; [exact (s_run_tape os ([], l) t1 xs H R)|].
  split; [reflexivity|]. split; [reflexivity|]. unfold s_eof, s_tape. cbn [s_str s_pos].
  rewrite lenZ_app. pose proof (lenZ_nonneg (snd t1)). apply Z.ltb_ge. lia.
Qed.
Theorem C68_first_in_first_out os t1 xs l :
  lenZ l + lenZ (s_written os) < 2 ^ 63 -> (forall k, ~ In (SMove k) os) ->
  tape_run ([], l) os = Some (t1, xs) ->
  exists d, s_run (s_open false l) os = Ok (d, xs)
    /\ s_str d = l ++ s_written os
    /\ delivered xs = firstn (Z.to_nat (s_pos d)) (l ++ s_written os).
Proof.
  intros H N R. destruct (C68_tape os t1 xs l H R) as (d & E & Es & Ep & _).
  destruct (tape_run_stream os ([], l) t1 xs N R) as [A B]. cbn [fst snd app] in *.
  exists d. split; [exact E|]. rewrite Es, Ep, A. split; [exact B|].
  rewrite <- B, to_nat_lenZ. now rewrite firstn_eq_app.
Qed.
(** Opening with truncation drops the old content. *)
Theorem C68_truncate os t1 xs l :
  lenZ (s_written os) < 2 ^ 63 -> tape_run ([], []) os = Some (t1, xs) ->
  exists d, s_run (s_open true l) os = Ok (d, xs) /\ s_str d = fst t1 ++ snd t1.
Proof.
  intros H R. destruct (C68_tape os t1 xs [] H R) as (d & E & Es & _). exists d. split; [exact E|exact Es].
Qed.
Example C68_case :
  let os := [SRead RGet; SWrite (WSpan [4; 5]); SRead (RRead 3); SWrite (WChar 6); SMove (-2); SRead (RRead 9)] in
  tape_run ([], [1; 2; 3]) os
  = Some (([1; 2; 3; 4; 5; 6], []), [inl [1]; inr 2; inl [2; 3; 4]; inr 1; inl []; inl [3; 4; 5; 6]]).
Proof. reflexivity. Qed.
(** Finding: as for the memory device, a block read after the end has been passed. *)
Theorem C68_read_after_end_refuted :
  exists l os, s_run (s_open false l) os = UB
    /\ os = [SRead RGet; SRead RGet; SRead (RRead 1)] /\ l = [65].
Proof. do 2 eexists. split; [|split; reflexivity]. reflexivity. Qed.

(** ** C69: buffered input *)
Theorem C69_in_order n src k os rest outs : (0 < n)%nat -> Z.of_nat n < 2 ^ 64 ->
  tape_reads src (RRead k :: os) = Some (rest, outs) ->
  exists b, r_run (r_open n src) (RRead k :: os) = Ok (b, outs)
    /\ r_stream b = rest /\ r_eof b = false.
Proof. exact (buffered_reader n src k os rest outs). Qed.
Example C69_case :
  let os := [RRead 0; RGet; RRead 5; RGet; RRead 2; RRead 9] in
  tape_reads [1; 2; 3; 4; 5; 6; 7; 8; 9; 10; 11] os
    = Some ([], [[]; [1]; [2; 3; 4; 5; 6]; [7]; [8; 9]; [10; 11]])
  /\ omap snd (r_run (r_open 3 [1; 2; 3; 4; 5; 6; 7; 8; 9; 10; 11]) os)
    = Ok [[]; [1]; [2; 3; 4; 5; 6]; [7]; [8; 9]; [10; 11]].
Proof. split; vm_compute; reflexivity. Qed.
(** Finding: a reader whose first operation is a get returns zero and claims the
    end of the file whatever the source holds; a block read then leaves the buffer. *)
Theorem C69_first_get_refuted n src : (0 < n)%nat ->
  exists b, r_run (r_open n src) [RGet] = Ok (b, [[0]]) /\ r_eof b = true /\ r_src b = src
    /\ (Z.of_nat n < 2 ^ 63 -> r_run (r_open n src) [RGet; RRead n] = UB).
Proof.
  intro Hn. eexists. split; [reflexivity|]. split; [reflexivity|]. split; [reflexivity|].
  intro H2. cbn [r_run r_step]. unfold r_get, r_move. cbn [r_open r_ptr r_end r_buf r_src].
  change (assert_then (0 <=? 0 + 1)
    (Ok (if 0 + 1 =? 0 then _ else ?x))) with (Ok x).
  cbn [bind r_step]. unfold r_read. cbn [r_ptr r_end r_buf r_src].
  change (size_t (0 - (0 + 1))) with (2 ^ 64 - 1).
  destruct (Z.ltb_spec (Z.of_nat n) (2 ^ 64 - 1)) as [C|C]; [|lia].
  unfold load_span. destruct (Z.eqb_spec (Z.of_nat n) 0); [lia|].
  replace (0 + 1 + Z.of_nat n <=? lenZ (repeat 0 n)) with false; [reflexivity|].
  symmetry. apply Z.leb_gt. unfold lenZ. rewrite repeat_length. lia.
Qed.

(** ** C70: reading up to a terminator *)
Theorem C70_buffered p a s size :
  exists x rest, s = x ++ rest
    /\ Forall (fun c => ~ matches p c) x /\ (length x <= size)%nat
    /\ (length x = size \/ match rest with [] => True | c :: _ => matches p c end)
    /\ till_buffered 2 p (mem_tape (a, s)) size = Ok (mem_tape (a ++ x, rest), x).
Proof.
  destruct (till_buffered_spec p a s size) as (rest & E & R).
  destruct (free_prefix_spec (pred_eval p) size s) as (rest' & E' & F & L & D).
  assert (rest = rest') by (rewrite E in E' at 1; now apply app_inv_head in E'). subst rest'.
  exists (free_prefix (pred_eval p) size s), rest.
  split; [exact E|]. split; [revert F; apply Forall_impl; intro; apply pred_eval_false|].
  split; [exact L|]. split; [|exact R].
  destruct D as [D|D]; [now left|right]. destruct rest; [exact I|now apply pred_eval_iff].
Qed.
(** A device without a buffer also takes the terminator. *)
Theorem C70_unbuffered p a s size :
  exists x rest, s = x ++ rest
    /\ Forall (fun c => ~ matches p c) x /\ (length x <= size)%nat
    /\ (length x = size \/ match rest with [] => True | c :: _ => matches p c end)
    /\ snd (till_simple p (mem_tape (a, s)) size) = x
    /\ ((length x < size)%nat -> mem_input (fst (till_simple p (mem_tape (a, s)) size)) = tl rest
         /\ mem_eof (fst (till_simple p (mem_tape (a, s)) size)) = match rest with [] => true | _ => false end)
    /\ (length x = size -> mem_input (fst (till_simple p (mem_tape (a, s)) size)) = rest).
Proof.
  destruct (till_simple_spec p size a s) as (rest & E & R).
  destruct (free_prefix_spec (pred_eval p) size s) as (rest' & E' & F & L & D).
  assert (rest = rest') by (rewrite E in E' at 1; now apply app_inv_head in E'). subst rest'.
  exists (free_prefix (pred_eval p) size s), rest. rewrite R. cbn [fst snd].
  set (x := free_prefix (pred_eval p) size s) in *.
  split; [exact E|]. split; [revert F; apply Forall_impl; intro; apply pred_eval_false|].
  split; [exact L|].
  split; [destruct D as [D|D]; [now left|right]; destruct rest; [exact I|now apply pred_eval_iff]|].
  split; [reflexivity|].
  destruct (Nat.eqb_spec (length x) size) as [C|C].
  - split; [lia|]. intros _. apply mem_input_tape.
  - split; [|lia]. intros _. destruct rest as [|c r].
    + unfold mem_input, mem_eof, mem_end. cbn [m_data m_ptr tl]. split.
      * apply skipn_all2. unfold lenZ. lia.
      * apply Z.ltb_lt. lia.
    + rewrite mem_input_tape, mem_eof_tape. auto.
Qed.
Example C70_case :
  till_buffered 2 (PChar 32) (mem_open [97; 98; 32; 99]) 5
    = Ok ({| m_data := [97; 98; 32; 99]; m_ptr := 2 |}, [97; 98])
  /\ till_buffered 2 (PChar 32) (mem_open [97; 98; 32; 99]) 1
    = Ok ({| m_data := [97; 98; 32; 99]; m_ptr := 1 |}, [97])
  /\ till_simple (PChar 32) (mem_open [97; 98; 32; 99]) 5
    = ({| m_data := [97; 98; 32; 99]; m_ptr := 3 |}, [97; 98]).
Proof. repeat split. Qed.

(** ** C71: skipping *)
Theorem C71_skip p a s : ~ matches p 0 ->
  exists x rest, s = x ++ rest
    /\ Forall (matches p) x
    /\ match rest with [] => True | c :: _ => ~ matches p c end
    /\ skip (S (length s)) p (mem_tape (a, s)) = Ok (mem_tape (a ++ x, rest)).
Proof.
  intro P0. destruct (skip_spec p s a) as (x & rest & E & F & R & K). exists x, rest.
  apply pred_eval_false in P0.
  split; [exact E|]. split; [revert F; apply Forall_impl; intro; apply pred_eval_iff|].
  split; [destruct rest; [exact I|now apply pred_eval_false]|]. rewrite K, P0. now destruct rest.
Qed.
Example C71_case :
  skip 4 (PFun (Z.eqb 32)) (mem_open [32; 32; 65]) = Ok {| m_data := [32; 32; 65]; m_ptr := 2 |}
  /\ skip 3 (PChar 32) (mem_open [32; 32]) = Ok {| m_data := [32; 32]; m_ptr := 2 |}.
Proof. split; reflexivity. Qed.
(** Finding: a set of characters given as a string contains the terminating
    zero, which is also what is seen at the end of the data. *)
Theorem C71_string_set_refuted l a s :
  Forall (fun c => In c l) s -> skip (S (length s)) (PString l) (mem_tape (a, s)) = AssertFail.
Proof.
  intro H. destruct (skip_spec (PString l) s a) as (x & rest & E & F & R & K). rewrite K.
  destruct rest as [|c r].
  - cbn [pred_eval]. now rewrite Z.eqb_refl, orb_true_r.
  - exfalso. rewrite E in H. apply Forall_app in H. destruct H as [_ H]. inversion H as [|? ? Hc]. subst.
    cbn [pred_eval] in R. rewrite orb_false_iff in R. destruct R as [R _].
    assert (existsb (Z.eqb c) l = true) by (apply existsb_exists; exists c; rewrite Z.eqb_refl; auto).
    congruence.
Qed.

(** ** C72: repeated characters *)
Theorem C72_fits a r c k : (k <= length r)%nat ->
  repeat_memory (mem_tape (a, r)) c (Z.of_nat k) = Ok (mem_tape (a ++ repeat c k, skipn k r)).
Proof. exact (repeat_memory_fits a r c k). Qed.
Theorem C72_overflow_refuted a r c k : (length r < k)%nat ->
  repeat_memory (mem_tape (a, r)) c (Z.of_nat k) = UB.
Proof. exact (repeat_memory_overflow a r c k). Qed.
Example C72_case :
  repeat_memory {| m_data := [1; 2; 3; 4]; m_ptr := 1 |} 42 2
  = Ok {| m_data := [1; 42; 42; 4]; m_ptr := 3 |}.
Proof. reflexivity. Qed.

Print Assumptions C22_longest_prefix.
Print Assumptions C22_each_count.
Print Assumptions C23_in_order.
Print Assumptions C23_get_at_end.
Print Assumptions C23_read_after_end_refuted.
Print Assumptions C24_exact_iff.
Print Assumptions C24_prefix_before_flush.
Print Assumptions C24_characters_exact.
Print Assumptions C24_exact_fill_refuted.
Print Assumptions C68_tape.
Print Assumptions C68_first_in_first_out.
Print Assumptions C68_truncate.
Print Assumptions C68_read_after_end_refuted.
Print Assumptions C69_in_order.
Print Assumptions C69_first_get_refuted.
Print Assumptions C70_buffered.
Print Assumptions C70_unbuffered.
Print Assumptions C71_skip.
Print Assumptions C71_string_set_refuted.
Print Assumptions C72_fits.
Print Assumptions C72_overflow_refuted.
