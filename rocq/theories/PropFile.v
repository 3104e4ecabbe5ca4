(** C110: files, C111: line buffering. *)
From Coq Require Import ZArith Bool List Lia.
From Verif Require Import Outcome DeviceModel FileModel FileProofs.
Import ListNotations.
Local Open Scope Z_scope.

(** ** C110 *)
(** [valid_mode m]: one of in, out, app is set. A file that exists can always be opened; its
    contents are kept, unless out is given without app ([start]). *)
Theorem C110_open : forall m l, valid_mode m ->
  exists s, open_file m (Some l) = Ok s /\
    file_close s = if has m m_out && negb (has m m_app) then [] else l.
Proof.
  intros m l V. destruct (open_some m l V) as (s & E & _ & _ & _ & _ & _ & _ & _ & _ & D).
  exists s. split; [exact E|]. now rewrite close_data.
Qed.
(** A file that does not exist is created, unless the mode is in alone or has all of in, out, app. *)
Theorem C110_missing : forall m, valid_mode m ->
  open_file m None = AssertFail /\ (is_out m = false \/ has m m_trunc = true) \/
  exists s, open_file m None = Ok s /\ file_close s = [] /\ is_out m = true /\ has m m_trunc = false.
Proof.
  intros m V. destruct (open_file m None) as [s| | | |] eqn:E;
    [|left; pose proof (open_spec m None V) as H; rewrite E in H; tauto|
     exfalso; pose proof (open_spec m None V) as H; rewrite E in H; tauto..].
  right. exists s. split; [reflexivity|]. rewrite close_data.
  pose proof (open_spec m None V) as H. rewrite E in H. destruct H as (_ & _ & _ & _ & _ & _ & _ & _ & ->).
  split; [now destruct (has m m_out && negb (has m m_app))|].
  destruct V as (V & W). unfold is_in, is_out, has in *.
  rewrite (land_low m m_in), (land_low m (Z.lor m_out m_app)) in * by (split; vm_compute; discriminate).
  rewrite !(land_low m m_trunc) by (split; vm_compute; discriminate).
  unfold open_file, mode_index in E. destruct (low_cases m ltac:(lia)) as (k & Ek & C). rewrite Ek in *. clear Ek.
  repeat destruct C as [->|C]; try subst k; cbn in W; try (destruct W; discriminate); cbn in E; try discriminate; auto.
Qed.
(** The mode trunc does not clear a file (the string device does), and in together with out does. *)
Theorem C110_trunc_refuted : forall l,
  (exists s, open_file m_trunc (Some l) = Ok s /\ file_close s = l) /\
  open_file m_trunc None = AssertFail /\
  (exists s, open_file (Z.lor m_in m_out) (Some l) = Ok s /\ file_close s = []) /\
  s_str (s_open true l) = [].
Proof.
  intro l. split; [|split; [reflexivity|split; [|reflexivity]]].
  - eexists. split; reflexivity.
  - eexists. split; reflexivity.
Qed.
(** Reading with get, read, peek and move delivers the bytes of the file as [ideal] says: from a
    position that starts at 0, moves on by what is delivered, and changes with move; peek is
    covered everywhere but at the end. The file does not change. *)
Theorem C110_read : forall m l os l1 p ys, valid_mode m -> is_in m = true -> forallb read_only os = true ->
  ideal false (start m l) 0 os = Some (l1, p, ys) ->
  exists s s1, open_file m (Some l) = Ok s /\ file_run s os = Ok (s1, ys) /\ file_close s1 = start m l.
Proof. exact read_main. Qed.
(** eof holds exactly after more was asked for than there is. *)
Theorem C110_eof : forall m l s os s1 rs, valid_mode m -> is_in m = true -> forallb plain_read os = true ->
  open_file m (Some l) = Ok s -> file_run s os = Ok (s1, rs) ->
  (file_eof s1 = true <-> (length (start m l) < list_sum (map demand os))%nat).
Proof. exact eof_main. Qed.
(** Peek at the end of a file goes back over the last byte, which is read again; in an empty file
    it fails an assertion. *)
Theorem C110_peek_refuted : forall m l, valid_mode m -> is_in m = true -> start m l = l ->
  (l <> [] -> exists s s1, open_file m (Some l) = Ok s /\
     file_run s [FRead (length l); FPeek; FGet] = Ok (s1, [RBytes l; RBytes [0]; RBytes [last l 0]])) /\
  (l = [] -> exists s, open_file m (Some l) = Ok s /\ file_run s [FPeek] = AssertFail).
Proof. exact peek_end. Qed.
(** All sequences of operations of a file that does not append that are allowed by the C library:
    the results and the file left behind are those of a sequence of bytes with a position, where
    writing overwrites and extends. *)
Theorem C110_update : forall m l s os s1 rs l1 p ys, valid_mode m -> appends m = false ->
  forallb (provided m) os = true -> open_file m (Some l) = Ok s -> file_run s os = Ok (s1, rs) ->
  ideal false (start m l) 0 os = Some (l1, p, ys) -> rs = ys /\ file_close s1 = l1.
Proof. exact update_main. Qed.
(** With append the old contents stay and everything written follows, whatever else is done. *)
Theorem C110_append : forall m l s os s1 rs, valid_mode m -> appends m = true ->
  open_file m (Some l) = Ok s -> file_run s os = Ok (s1, rs) ->
  file_close s1 = l ++ concat (map written os).
Proof. exact append_main. Qed.
(** Writing alone always succeeds, is counted completely and is in the file after the destructor. *)
Theorem C110_write : forall m l os, valid_mode m -> is_out m = true -> forallb write_only os = true ->
  exists s s1, open_file m (Some l) = Ok s /\ file_run s os = Ok (s1, map count_of os) /\
    file_close s1 = if appends m then l ++ concat (map written os)
                    else overwrite (start m l) 0 (concat (map written os)).
Proof. exact write_main. Qed.
(** A file opened for both: reading right after writing is undefined, and writing after reading too,
    even with a flush between; a move is needed. *)
Theorem C110_turn : forall m l c, valid_mode m -> is_in m = true -> is_out m = true -> start m l <> [] ->
  exists s, open_file m (Some l) = Ok s /\
    file_run s [FPut c; FGet] = UB /\ file_run s [FGet; FPut c] = UB /\ file_run s [FGet; FFlush; FPut c] = UB /\
    (exists s1 rs, file_run s [FPut c; FFlush; FGet] = Ok (s1, rs)) /\
    (exists s1 rs, file_run s [FPut c; FMove 0; FGet; FMove 0; FPut c] = Ok (s1, rs)).
Proof. exact turn_main. Qed.
Example C110_case :
  valid_mode m_in /\ valid_mode (Z.lor m_in m_app) /\ valid_mode m_trunc /\
  appends m_trunc = false /\ appends (Z.lor m_in m_app) = true /\ start m_in [1; 2; 3; 4; 5] = [1; 2; 3; 4; 5] /\
  ideal false [1; 2; 3; 4; 5] 0 [FGet; FPeek; FRead 2; FMove (-1); FRead 9]
    = Some ([1; 2; 3; 4; 5], 5%nat, [RBytes [1]; RBytes [2]; RBytes [2; 3]; RUnit; RBytes [3; 4; 5]]) /\
  (exists s s1, open_file m_in (Some [1; 2; 3; 4; 5]) = Ok s /\
    file_run s [FGet; FPeek; FRead 2; FMove (-1); FRead 9]
    = Ok (s1, [RBytes [1]; RBytes [2]; RBytes [2; 3]; RUnit; RBytes [3; 4; 5]]) /\ file_eof s1 = true) /\
  (exists s s1, open_file m_trunc (Some [1; 2; 3; 4; 5]) = Ok s /\
    file_run s [FGet; FMove 1; FWrite [7; 8]; FFlush; FGet; FMove 2; FPut 9]
    = Ok (s1, [RBytes [1]; RUnit; RCount 2; RUnit; RBytes [5]; RUnit; RCount 1]) /\
    file_close s1 = [1; 2; 7; 8; 5; 0; 0; 9]) /\
  (exists s s1 rs, open_file (Z.lor m_in m_app) (Some [1; 2]) = Ok s /\
    file_run s [FGet; FMove 0; FWrite [7; 8]; FMove (-3); FPut 9] = Ok (s1, rs) /\ file_close s1 = [1; 2; 7; 8; 9]).
Proof.
  split; [|split; [|split]]; [split; [split; vm_compute; (reflexivity || discriminate)|vm_compute; auto]..|].
  split; [reflexivity|]. split; [reflexivity|]. split; [reflexivity|]. split; [vm_compute; reflexivity|].
  split; [|split].
  - do 2 eexists. split; [vm_compute; reflexivity|]. split; vm_compute; reflexivity.
  - do 2 eexists. split; [vm_compute; reflexivity|]. split; vm_compute; reflexivity.
  - do 3 eexists. split; [vm_compute; reflexivity|]. split; vm_compute; reflexivity.
Qed.

(** ** C111 *)
(** The write of the line buffered wrapper has no return statement: every call is undefined. *)
Theorem C111_write_refuted : forall m l s xs, valid_mode m -> is_out m = true -> open_file m (Some l) = Ok s ->
  line_write s xs = UB.
Proof.
  intros m l s xs V O E. destruct (open_some m l V) as (s' & E' & Ei & Eo & Ea & G & P & L & _).
  rewrite E in E'. injection E' as <-.
  destruct (line_write_spec s xs G ltac:(congruence) ltac:(congruence)) as (s1 & E1 & _).
  unfold line_write. now rewrite E1.
Qed.
(** What the calls do to the file if the missing return is overlooked: everything reaches the file,
    and after each call everything up to the last line feed written so far is on the disk
    ([st_disk]); without a line feed nothing is flushed. *)
Theorem C111_write : forall m l s xss, valid_mode m -> is_out m = true -> open_file m (Some l) = Ok s ->
  exists s1, line_writes s xss = Ok s1 /\
    file_close s1 = (if appends m then l ++ concat xss else overwrite (start m l) 0 (concat xss)) /\
    (forall h t, concat xss = h ++ 10 :: t -> ~ In 10 t ->
       st_disk s1 = if appends m then l ++ h ++ [10] else overwrite (start m l) 0 (h ++ [10])) /\
    (~ In 10 (concat xss) -> st_disk s1 = start m l).
Proof.
  intros m l s xss V O E. destruct (open_some m l V) as (s' & E' & Ei & Eo & Ea & G & P & L & _ & K & D).
  rewrite E in E'. injection E' as <-.
  destruct (line_writes_spec xss s G ltac:(congruence) ltac:(congruence)) as (s1 & E1 & D1 & K1 & K0). cbn zeta in *.
  exists s1. split; [exact E1|]. rewrite close_data, D1.
  assert (Q : forall ys, overwrite (st_data s) (if st_app s then length (st_data s) else Z.to_nat (st_pos s)) ys
            = if appends m then l ++ ys else overwrite (start m l) 0 ys).
  { intro ys. rewrite Ea, P, D. destruct (appends m) eqn:A; [|reflexivity]. rewrite overwrite_end. f_equal.
    unfold start, appends in *. apply andb_true_iff in A as (-> & _). now rewrite andb_false_r. }
  split; [apply Q|]. split.
  - intros h t Eh N. rewrite (K1 (h ++ [10])), Q.
    + reflexivity.
    + rewrite Eh. apply in_or_app. right. now left.
    + exists t. rewrite Eh, <- app_assoc. repeat split; auto. right. eauto.
  - intro N. rewrite (K0 N). congruence.
Qed.
(** Reading a file without zero bytes into buffers of the given sizes delivers the lines one by one:
    a line longer than a buffer is delivered in parts ([lines], [next_line]). *)
Theorem C111_read : forall m l s ns, valid_mode m -> is_in m = true -> open_file m (Some l) = Ok s ->
  ~ In 0 (start m l) -> Forall (fun n => n <> O) ns ->
  exists s1 rs, line_reads s ns = Ok (s1, rs) /\ lines ns (start m l) rs.
Proof.
  intros m l s ns V I E N F. destruct (open_some m l V) as (s' & E' & Ei & Eo & Ea & G & P & L & _ & K & D).
  rewrite E in E'. injection E' as <-.
  destruct (line_reads_spec ns s G ltac:(congruence) ltac:(congruence) ltac:(congruence) F) as (s1 & rs & E1 & H).
  rewrite P, D in H. cbn [Z.to_nat skipn] in H. eauto.
Qed.
(** The lines are determined by the sizes. *)
Theorem C111_unique : forall ns l rs rs', lines ns l rs -> lines ns l rs' -> rs = rs'.
Proof.
  intros ns l rs rs' H. revert rs'. induction H as [l|n ns l r l' rs Hn H IH]; intros rs' H'; inversion H'; subst; [reflexivity|].
  match goal with K : next_line _ _ _ _ |- _ => rename K into Hn' end.
  assert (r = r0 /\ l' = l'0) as (<- & <-).
  { assert (A : forall r1 r2 l1 l2, next_line n (r1 ++ l1) r1 l1 -> r1 ++ l1 = r2 ++ l2 -> next_line n (r1 ++ l1) r2 l2 ->
        (length r1 <= length r2)%nat -> r1 = r2 /\ l1 = l2).
    { intros r1 r2 l1 l2 (_ & B1 & C1 & D1) Eq (_ & B2 & C2 & D2) Le.
      assert (exists d, r2 = r1 ++ d /\ l1 = d ++ l2) as (d & E1 & E2).
      { exists (skipn (length r1) r2).
        assert (F : firstn (length r1) r2 = r1).
        { assert (K : firstn (length r1) (r1 ++ l1) = firstn (length r1) (r2 ++ l2)) by now rewrite Eq.
          rewrite !firstn_app, firstn_all, Nat.sub_diag in K.
          replace (length r1 - length r2)%nat with O in K by lia. cbn [firstn] in K. now rewrite !app_nil_r in K. }
        assert (Er : r2 = r1 ++ skipn (length r1) r2) by (rewrite <- (firstn_skipn (length r1) r2) at 1; now rewrite F).
        split; [exact Er|]. rewrite Er, <- app_assoc in Eq. now apply app_inv_head in Eq. }
      destruct d as [|x d]; [rewrite E1, app_nil_r; auto|]. exfalso.
      destruct D1 as [->|[D1|(a & D1)]].
      - discriminate.
      - rewrite E1, app_length in B2. cbn in B2. lia.
      - rewrite D1, <- app_assoc in E1. specialize (C2 a (x :: d) E1). discriminate. }
    assert (El : r ++ l' = r0 ++ l'0) by (destruct Hn as (<- & _); destruct Hn' as (<- & _); reflexivity).
    assert (Ll : l = r ++ l') by apply Hn.
    destruct (Nat.le_ge_cases (length r) (length r0)).
    - apply A; auto; rewrite <- Ll; assumption.
    - destruct (A r0 r l'0 l') as (-> & ->); auto; rewrite <- El, <- Ll; assumption. }
  f_equal. now apply IH.
Qed.
(** A zero byte cuts the line: the rest of the line is taken from the file and lost. *)
Theorem C111_zero_refuted : forall m a b c n, valid_mode m -> is_in m = true -> has m m_out = false ->
  ~ In 0 a -> ~ In 10 a -> ~ In 10 b -> (length a + length b + 2 <= n)%nat ->
  exists s s1, open_file m (Some (a ++ 0 :: b ++ 10 :: c)) = Ok s /\
    line_read s (S n) = Ok (s1, a) /\ exists s2, fread s1 (length c) = Ok (s2, c).
Proof.
  intros m a b c n V I O Na La Lb Hn. set (l := a ++ 0 :: b ++ 10 :: c).
  destruct (open_some m l V) as (s & E & Ei & Eo & Ea & G & P & L & _ & K & D).
  assert (St : start m l = l) by (unfold start; now rewrite O). rewrite St in D.
  destruct (fgets_loop_spec n s G ltac:(congruence) ltac:(congruence)) as (s1 & E1 & G1 & I1 & L1 & D1 & P1). cbn zeta in *.
  rewrite P, D in E1, P1. cbn [Z.to_nat skipn Nat.add] in E1, P1.
  assert (X : line_part n l = a ++ 0 :: b ++ [10]).
  { unfold l. clear - La Lb Hn. revert n Hn.
    assert (B : forall n, (length b < n)%nat -> line_part n (b ++ 10 :: c) = b ++ [10]).
    { induction b as [|y b IH]; intros [|n] H; cbn in H; try lia; [reflexivity|].
      cbn [app line_part]. destruct (Z.eqb_spec y 10) as [->|]; [exfalso; apply Lb; now left|].
      rewrite IH; [reflexivity| |lia]. intro. apply Lb. now right. }
    induction a as [|x a IH]; intros [|n] H; cbn [length] in H; try lia; cbn [app line_part].
    - cbn [Z.eqb]. rewrite B by lia. reflexivity.
    - destruct (Z.eqb_spec x 10) as [->|]; [exfalso; apply La; now left|].
      rewrite IH; [reflexivity| |lia]. intro. apply La. now right. }
  exists s, s1. split; [exact E|]. split.
  - unfold line_read, fgets. rewrite E1. cbn [bind]. rewrite X.
    assert (Y : firstn (strlen (a ++ 0 :: b ++ [10])) (a ++ 0 :: b ++ [10]) = a).
    { clear - Na. induction a as [|x a IH]; [reflexivity|]. cbn [app strlen].
      destruct (Z.eqb_spec x 0) as [->|]; [exfalso; apply Na; now left|]. cbn [firstn]. rewrite IH; [reflexivity|].
      intro. apply Na. now right. }
    destruct (a ++ 0 :: b ++ [10]) eqn:Z0; [destruct a; discriminate|]. cbn [bind]. now rewrite Y.
  - destruct (fread_ok (length c) s1 L1) as (s2 & xs & E2 & _).
    destruct (fread_spec _ _ _ _ G1 I1 E2) as (_ & _ & _ & _ & X2 & _).
    exists s2. rewrite E2. do 2 f_equal. rewrite X2, D1, D, P1, X. unfold l.
    replace (a ++ 0 :: b ++ 10 :: c) with ((a ++ 0 :: b ++ [10]) ++ c) by (rewrite <- app_assoc; cbn; now rewrite <- app_assoc).
    rewrite skipn_app, skipn_all, Nat.sub_diag. cbn [skipn app]. apply firstn_all.
Qed.
Example C111_case :
  (exists s s1, open_file m_in (Some [65; 66; 10; 67; 68; 69; 10; 70]) = Ok s /\
    line_reads s [10; 3; 3; 10; 10]%nat = Ok (s1, [[65; 66; 10]; [67; 68]; [69; 10]; [70]; []])) /\
  (exists s s1, open_file m_app (Some [1; 2]) = Ok s /\
    line_writes s [[65; 10; 66]; [67]; [68; 10; 69; 10; 70]; [71]] = Ok s1 /\
    file_close s1 = [1; 2; 65; 10; 66; 67; 68; 10; 69; 10; 70; 71] /\ st_disk s1 = [1; 2; 65; 10; 66; 67; 68; 10; 69; 10]).
Proof.
  split.
  - do 2 eexists. split; vm_compute; reflexivity.
  - do 2 eexists. split; [vm_compute; reflexivity|]. split; [vm_compute; reflexivity|]. split; vm_compute; reflexivity.
Qed.

Print Assumptions C110_open.
Print Assumptions C110_missing.
Print Assumptions C110_trunc_refuted.
Print Assumptions C110_read.
Print Assumptions C110_eof.
Print Assumptions C110_peek_refuted.
Print Assumptions C110_update.
Print Assumptions C110_append.
Print Assumptions C110_write.
Print Assumptions C110_turn.
Print Assumptions C111_write_refuted.
Print Assumptions C111_write.
Print Assumptions C111_read.
Print Assumptions C111_unique.
Print Assumptions C111_zero_refuted.
