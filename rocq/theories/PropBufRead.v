(** C148: reading arguments from text through a buffer. *)
From Coq Require Import ZArith List Bool Lia.
From Verif Require Import Outcome StringModel IntTextModel FormatModel FormatProofs FloatTextModel DeviceModel DeviceProofs
  ShortModel ShortProofs ReadModel ReadProofs PropRead PropShort BufReadModel BufReadProofs.
Import ListNotations.
Local Open Scope Z_scope.

Lemma delivers_concat os : forall s outs rest, delivers s os outs rest -> s = concat outs ++ rest.
Proof.
  induction os as [|o os IH]; intros s [|x outs] rest; cbn [delivers]; try contradiction; [intros ->; reflexivity|].
  intros (_ & _ & s' & -> & D). cbn [concat]. rewrite <- app_assoc. f_equal. apply IH, D.
Qed.

Lemma run_open n pieces old os : (0 < n)%nat -> Z.of_nat n < 2 ^ 64 -> Forall (fun p => p <> []) pieces ->
  Forall (fun o => (asked o <= n)%nat) (SRead old :: os) ->
  exists b outs rest, sr_run (sr_open n pieces) (SRead old :: os) = Ok (b, outs) /\ concat pieces = concat outs ++ rest /\ reader_at n b true rest.
Proof.
  intros N N64 F FA. inversion FA as [|? ? A1 A2]; subst.
  assert (R : reader_at n (sr_open n pieces) false (concat pieces)).
  { unfold reader_at, sr_open. cbn [sr_buf sr_src sr_ptr sr_end]. split; [apply repeat_length|]. split; [exact F|].
    exists [], [], (repeat 0 n). repeat split. discriminate. }
  destruct (read_at n _ false _ old N N64 A1 R) as (b1 & dst & x & s & E & FX & S & R1 & LX & NX).
  destruct (run_at n os N N64 A2 b1 s R1) as (b2 & outs & rest & E2 & Dl & R2). exists b2, (x :: outs), rest.
  cbn [sr_run sr_step]. rewrite E. cbn [bind]. rewrite FX, E2. cbn [bind]. split; [reflexivity|]. split; [|exact R2].
  cbn [concat]. rewrite S, <- app_assoc. f_equal. eapply delivers_concat, Dl.
Qed.

(** Whatever the size of the buffer, the pieces in which the source gives its data, and the blocks and characters taken before: an argument of any
    type is read as from a memory with the characters that are left, with the same value, failure, assertion or exception; after a success
    the device delivers what is left in that memory. *)
Theorem C148_same_as_memory : forall t ty n pieces old os b outs, (0 < n)%nat -> Z.of_nat n < 2 ^ 64 -> Forall (fun p => p <> []) pieces ->
  Forall (fun o => (asked o <= n)%nat) (SRead old :: os) ->
  sr_run (sr_open n pieces) (SRead old :: os) = Ok (b, outs) ->
  match read_arg t ty (mem_open (skipn (length (concat outs)) (concat pieces))) with
  | Ok (m, Some v) => exists b', sread_arg t ty b = Ok (b', Some v) /\
      forall os', Forall (fun o => (asked o <= n)%nat) os' ->
        exists b'' outs' rest, sr_run b' os' = Ok (b'', outs') /\ delivers (mem_input m) os' outs' rest
  | Ok (_, None) => exists b', sread_arg t ty b = Ok (b', None)
  | AssertFail => sread_arg t ty b = AssertFail
  | Throw => sread_arg t ty b = Throw
  | UB => sread_arg t ty b = UB
  | NoFuel => sread_arg t ty b = NoFuel
  end.
Proof.
  intros t ty n pieces old os b outs N N64 F FA H. destruct (run_open n pieces old os N N64 F FA) as (b0 & o0 & rest & E & C & R).
  rewrite E in H. injection H as -> ->. rewrite C, skipn_app, skipn_all2, Nat.sub_diag by lia. cbn [app skipn].
  pose proof (all_agree t n N ty [] rest b R) as A. rewrite mem_open_tape.
  destruct (read_arg t ty (mem_tape ([], rest))) as [[m [v|]]| | | |]; destruct (sread_arg t ty b) as [[b' [v'|]]| | | |];
    cbn [agree] in A; try contradiction; eauto.
  destruct A as (<- & a & s & -> & R'). exists b'. split; [reflexivity|]. intros os' FA'. rewrite mem_input_tape. cbn [snd].
  destruct (run_at n os' N N64 FA' b' s R') as (b2 & outs' & rest' & E2 & D & _). eauto.
Qed.
Print Assumptions C148_same_as_memory.

(* "x 12 [ab] tr" "ue 3 1" " 2 3": a buffer of 2 characters, a block of 1 character taken before. *)
Definition case_pieces : list (list Z) := [[120; 32; 49; 50; 32; 97; 98; 32; 116; 114]; [117; 101; 32; 51; 32; 49]; [32; 50; 32; 51]].
Definition case_types : list rtype := [TInt 32 true; TStr 0; TBool; TVector (TInt 8 false)].
Definition case_text : text := setf plain_text flag_boolalpha.

Example C148_case_memory :
  Forall (fun p : list Z => p <> []) case_pieces /\ Forall (fun o => (asked o <= 2)%nat) [SRead [0]] /\
  (exists b, sr_run (sr_open 2 case_pieces) [SRead [0]] = Ok (b, [[120]]) /\
     exists b', sread_args case_text case_types b = Ok (b', Some (VList [VInt 12; VStr [97; 98]; VBool true; VList [VInt 1; VInt 2; VInt 3]]))) /\
  exists m, read_args case_text case_types (mem_open (skipn 1 (concat case_pieces)))
    = Ok (m, Some (VList [VInt 12; VStr [97; 98]; VBool true; VList [VInt 1; VInt 2; VInt 3]])).
Proof.
  repeat split; [repeat constructor; discriminate|repeat constructor|eexists; split; [vm_compute; reflexivity|]|];
    eexists; vm_compute; reflexivity.
Qed.

(** Arguments that are written with a separator of white space are read back through a buffer of any size from a source that gives what
    was written in any pieces (the buffer is filled first by a block read of no characters); nothing but white space is left. *)
Theorem C148_round_trip : forall t sp co ts args vs n, (0 < n)%nat -> Z.of_nat n < 2 ^ 64 ->
  t_base t = 0 \/ 2 <= t_base t <= 36 -> sp <> [] -> Forall space sp -> stands_all ts args vs ->
  exists ls out ws, settles (fun n => write n (stack false t sp co false) args) ls out /\ Forall space ws /\
    forall pieces, Forall (fun p => p <> []) pieces -> concat pieces = out ->
      exists b b', sr_run (sr_open n pieces) [SRead []] = Ok (b, [[]]) /\ sread_args t ts b = Ok (b', Some (VList vs)) /\
        forall os, Forall (fun o => (asked o <= n)%nat) os -> exists b'' outs rest, sr_run b' os = Ok (b'', outs) /\ delivers ws os outs rest.
Proof.
  intros t sp co ts args vs n N N64 B NE F St. destruct (C107_round_trip t sp co ts args vs B NE F St) as (ls & out & m & W & E & Ws).
  exists ls, out, (mem_input m). split; [exact W|]. split; [exact Ws|]. intros pieces FP C.
  assert (FA : Forall (fun o => (asked o <= n)%nat) [SRead []]) by (repeat constructor; cbn; lia).
  destruct (C146_reader n pieces [] [] N N64 FP FA) as (b & outs & rest & R & D).
  assert (X : outs = [[]]).
  { destruct outs as [|x [|y outs]]; cbn in D; try contradiction.
    - destruct D as (Lx & _). destruct x; [reflexivity|cbn in Lx; lia].
    - destruct D as (_ & _ & s & _ & []). }
  subst outs. exists b.
  pose proof (C148_same_as_memory t (TTuple ts) n pieces [] [] b [[]] N N64 FP FA R) as H. unfold read_args in E. cbn [concat length skipn app] in H.
  rewrite C, E in H. destruct H as (b' & H & H2). exists b'. auto.
Qed.
Print Assumptions C148_round_trip.

(* "2 1 x -7 y word" in three pieces through a buffer of 3 characters *)
Example C148_case_round_trip :
  let ts := [TVector (TTuple [TInt 32 true; TChar]); TStr 0] in
  exists b b', sr_run (sr_open 3 [[50; 32; 49; 32; 120; 32; 45]; [55; 32; 121]; [32; 119; 111; 114; 100]]) [SRead []] = Ok (b, [[]]) /\
    sread_args plain_text ts b = Ok (b', Some (VList [VList [VList [VInt 1; VChar 120]; VList [VInt (-7); VChar 121]]; VStr [119; 111; 114; 100]])).
Proof. cbv zeta. eexists _, _. split; [vm_compute; reflexivity|]. vm_compute; reflexivity. Qed.

(** Finding: nothing fills the buffer of a reader that has just been made. Whatever the source has, integers and booleans cannot be read and stay unread
    however often they are asked for; reading a character fails and the reader is at the end for good. *)
Theorem C148_unfilled_refuted : forall t n pieces,
  (forall w sg, sread_arg t (TInt w sg) (sr_open n pieces) = Ok (sr_open n pieces, None)) /\
  sread_arg t TBool (sr_open n pieces) = Ok (sr_open n pieces, None) /\
  (forall ty, sread_arg t (TVector ty) (sr_open n pieces) = Ok (sr_open n pieces, None)) /\
  exists b, sread_arg t TChar (sr_open n pieces) = Ok (b, None) /\
    forall k, exists b', Nat.iter k (fun r => do b <- r; omap fst (sread_arg t TChar b)) (Ok b) = Ok b' /\ sr_eof b' = true /\ sr_src b' = pieces.
Proof.
  intros t n pieces.
  assert (I0 : sr_input (sr_open n pieces) = []) by reflexivity.
  assert (SK : sskip_space (sr_open n pieces) = Ok (sr_open n pieces)) by reflexivity.
  assert (SI : forall w sg base, sexec_int w sg base (sr_open n pieces) = Ok (sr_open n pieces, None)) by reflexivity.
  split; [|split; [|split]].
  - intros w sg. cbn [sread_arg]. rewrite SK. cbn [bind]. apply SI.
  - reflexivity.
  - intros ty. rewrite sread_vector, SK. cbn [bind]. rewrite SI. reflexivity.
  - eexists. split; [reflexivity|]. intros k.
    assert (G : exists p, 0 < p /\ Nat.iter k (fun r => do b <- r; omap fst (sread_arg t TChar b))
      (Ok {| sr_buf := repeat 0 n; sr_ptr := 1; sr_end := 0; sr_src := pieces |}) = Ok {| sr_buf := repeat 0 n; sr_ptr := p; sr_end := 0; sr_src := pieces |}).
    { induction k as [|k (p & P & IH)]; [exists 1; split; [lia|reflexivity]|].
      exists (p + 1). split; [lia|]. cbn [Nat.iter nat_rect]. unfold Nat.iter in IH. rewrite IH. cbn [bind sread_arg].
      unfold sskip_space. cbn [sskip]. unfold sr_eof at 1. cbn [sr_end sr_ptr]. destruct (Z.ltb_spec 0 p); [|lia]. cbn [negb andb bind].
      unfold sr_get, sr_move. cbn [sr_end sr_ptr sr_buf sr_src]. destruct (Z.leb_spec 0 (p + 1)); [|lia]. cbn [assert_then].
      destruct (Z.eqb_spec (p + 1) 0); [lia|]. reflexivity. }
    destruct G as (p & P & G). eexists. split; [exact G|]. unfold sr_eof. cbn [sr_end sr_ptr sr_src]. split; [|reflexivity]. apply Z.ltb_lt, P.
Qed.
Print Assumptions C148_unfilled_refuted.

(** ... and the first string is read as empty, with success, which fills the buffer: the next argument is read as from memory. *)
Theorem C148_first_string_refuted : forall t ty n pieces capacity, (0 < n)%nat -> Z.of_nat n < 2 ^ 64 -> Forall (fun p => p <> []) pieces ->
  exists b, sread_arg t (TStr capacity) (sr_open n pieces) = Ok (b, Some (VStr [])) /\
    forall m v, read_arg t ty (mem_open (concat pieces)) = Ok (m, Some v) -> exists b', sread_arg t ty b = Ok (b', Some v).
Proof.
  intros t ty n pieces capacity N N64 F. exists (sr_underflow (sr_open n pieces)). split.
  - cbn [sread_arg]. change (sskip_space (sr_open n pieces)) with (Ok (sr_open n pieces)). cbn [bind].
    unfold sread_string. cbn [sread_till still]. change (sr_input (sr_open n pieces)) with (@nil Z).
    rewrite BufferProofs.till_copy_free. assert (M : exists k, Nat.max 16 capacity = S k) by (exists (Nat.max 16 capacity - 1)%nat; lia).
    destruct M as (k & ->). cbn [BufferProofs.free_prefix lenZ length Nat.sub Nat.min Nat.eqb Nat.ltb Nat.leb orb negb].
    change (sr_move (sr_open n pieces) (Z.of_nat 0)) with (Ok (sr_underflow (sr_open n pieces))). reflexivity.
  - intros m v E. assert (L : length (sr_buf (sr_open n pieces)) = n) by apply repeat_length.
    destruct (underflow_at n (sr_open n pieces) N L F) as (R & _). pose proof (all_agree t n N ty [] _ _ R) as A.
    change (concat (sr_src (sr_open n pieces))) with (concat pieces) in A. rewrite <- mem_open_tape, E in A.
    destruct (sread_arg t ty (sr_underflow (sr_open n pieces))) as [[b' [v'|]]| | | |]; cbn [agree] in A; try contradiction.
    destruct A as (-> & _). eauto.
Qed.
Print Assumptions C148_first_string_refuted.

(* "12 ab" *)
Example C148_case_first :
  omap snd (sread_args plain_text [TStr 0; TInt 32 true; TStr 0] (sr_open 4 [[49; 50; 32; 97; 98]])) = Ok (Some (VList [VStr []; VInt 12; VStr [97; 98]])) /\
  omap snd (sread_args plain_text [TInt 32 true; TStr 0] (sr_open 4 [[49; 50; 32; 97; 98]])) = Ok None.
Proof. split; vm_compute; reflexivity. Qed.

(** When everything has been taken: the buffer is empty, the next character is reported to be 0 but the end is not reported yet; it is
    reported from the first attempt to take a character on, which gives 0. *)
Theorem C148_at_end : forall n pieces old os b outs, (0 < n)%nat -> Z.of_nat n < 2 ^ 64 -> Forall (fun p => p <> []) pieces ->
  Forall (fun o => (asked o <= n)%nat) (SRead old :: os) ->
  sr_run (sr_open n pieces) (SRead old :: os) = Ok (b, outs) ->
  sr_eof b = false /\
  sr_peek b = hd 0 (skipn (length (concat outs)) (concat pieces)) /\
  (concat outs = concat pieces -> sr_input b = [] /\ exists b', sr_get b = Ok (b', 0) /\ sr_eof b' = true /\ sr_peek b' = 0) /\
  (concat outs <> concat pieces -> sr_input b <> [] /\
     exists b', sr_get b = Ok (b', hd 0 (skipn (length (concat outs)) (concat pieces))) /\ sr_eof b' = false).
Proof.
  intros n pieces old os b outs N N64 F FA H. destruct (run_open n pieces old os N N64 F FA) as (b0 & o0 & rest & E & C & R).
  rewrite E in H. injection H as -> ->. rewrite C, skipn_app, skipn_all2, Nat.sub_diag by lia. cbn [app skipn].
  split; [exact (eof_at _ _ _ _ R)|]. split; [exact (peek_at _ _ _ R)|]. split.
  - intros X. assert (Q : rest = []) by (rewrite <- (app_nil_r (concat outs)) in X at 1; now apply app_inv_head in X).
    subst rest. destruct (input_split _ _ _ _ R) as (x & t & B & P & En & S & L & Fs). symmetry in S. apply app_eq_nil in S. destruct S as [S1 S2].
    split; [exact S1|]. unfold sr_get, sr_move. cbn [sr_ptr sr_end sr_buf sr_src]. rewrite P, En, S1. change (lenZ (@nil Z)) with 0. rewrite Z.add_0_r.
    pose proof (lenZ_nonneg x). destruct (Z.leb_spec 0 (lenZ x + 1)); [|lia]. cbn [assert_then].
    destruct (Z.eqb_spec (lenZ x + 1) (lenZ x)); [lia|]. cbn [bind]. rewrite Z.ltb_irrefl. eexists. split; [reflexivity|]. unfold sr_eof, sr_peek. cbn [sr_ptr sr_end].
    destruct (Z.ltb_spec (lenZ x) (lenZ x + 1)); [|lia]. destruct (Z.ltb_spec (lenZ x + 1) (lenZ x)); [lia|]. auto.
  - intros X. destruct (sr_input b) as [|c i] eqn:Ei.
    + exfalso. apply X. rewrite (input_nil _ _ _ R Ei), app_nil_r. reflexivity.
    + split; [discriminate|]. destruct (get_at n b true _ c i N R Ei) as (b' & s' & G & S & R'). rewrite S. exists b'. split; [exact G|].
      exact (eof_at _ _ _ _ R').
Qed.
Print Assumptions C148_at_end.

Example C148_case_end :
  exists b, sr_run (sr_open 2 [[5]; [6; 7; 8]]) [SRead [0; 0]; SGet; SGet; SRead [0]] = Ok (b, [[5]; [6]; [7]; [8]]) /\
    sr_eof b = false /\ exists b', sr_get b = Ok (b', 0) /\ sr_eof b' = true.
Proof. eexists. split; [vm_compute; reflexivity|]. split; [reflexivity|]. eexists. split; vm_compute; reflexivity. Qed.

(** From end to end: arguments that are written through a buffer of any size (in any division into characters, blocks and flushes that avoids the
    defect of C24) to a pipe are read back from the pipe through a buffer of any other size. *)
Theorem C148_pipe : forall t sp co ts args vs n1 n2, (0 < n1)%nat -> Z.of_nat n1 < 2 ^ 64 -> (0 < n2)%nat -> Z.of_nat n2 < 2 ^ 64 ->
  t_base t = 0 \/ 2 <= t_base t <= 36 -> sp <> [] -> Forall space sp -> stands_all ts args vs ->
  exists ls out, settles (fun n => write n (stack false t sp co false) args) ls out /\
    forall os, b_written os = out -> ~ boundary_hit (Z.of_nat n1) os ->
      exists w, sw_run pipe_write (sw_open n1 []) os = Ok (w, map (fun o => lenZ (bop_data o)) os) /\
        exists b b', sr_run (sr_open n2 (sw_dev (sw_overflow pipe_write w))) [SRead []] = Ok (b, [[]]) /\ sread_args t ts b = Ok (b', Some (VList vs)).
Proof.
  intros t sp co ts args vs n1 n2 N1 N164 N2 N264 B NE F St.
  destruct (C148_round_trip t sp co ts args vs n2 N2 N264 B NE F St) as (ls & out & ws & W & _ & H). exists ls, out. split; [exact W|].
  intros os Eo NB. destruct (C146_writer _ pipe_write [] n1 os N1 N164 NB) as (w & blocks & R & C & G). exists w. split; [exact R|].
  assert (Q : forall ps d, Forall (fun p => p <> []) d -> Forall (fun p => p <> []) (fold_left (fun d p => fst (pipe_write d p)) ps d) /\
    concat (fold_left (fun d p => fst (pipe_write d p)) ps d) = concat d ++ concat ps).
  { clear. induction ps as [|p ps IH]; intros d Fd; cbn [fold_left concat]; [rewrite app_nil_r; auto|].
    assert (X : Forall (fun p => p <> []) (fst (pipe_write d p)) /\ concat (fst (pipe_write d p)) = concat d ++ p).
    { unfold pipe_write. destruct p as [|c p]; cbn [fst]; [rewrite app_nil_r; auto|]. split.
      - apply Forall_app. split; [exact Fd|]. repeat constructor. discriminate.
      - rewrite concat_app. cbn [concat]. rewrite app_nil_r. reflexivity. }
    destruct X as [X1 X2]. destruct (IH _ X1) as [I1 I2]. split; [exact I1|]. rewrite I2, X2, <- app_assoc. reflexivity. }
  destruct (Q blocks [] (Forall_nil _)) as [Q1 Q2]. cbn [concat app] in Q2.
  destruct (H (sw_dev (sw_overflow pipe_write w))) as (b & b' & H1 & H2 & _); [rewrite G; exact Q1|rewrite G, Q2, C; exact Eo|]. eauto.
Qed.
Print Assumptions C148_pipe.

(* "12 ab 7" as a number, a space, a word and a number: written through a buffer of 4 characters it comes out in the pieces "12 a" and "b 7". *)
Example C148_case_pipe :
  let os := [BWrite (WSpan [49; 50]); BWrite (WChar 32); BWrite (WChar 97); BWrite (WSpan [98; 32]); BWrite (WChar 55)] in
  ~ boundary_hit 4 os /\
  exists w, sw_run pipe_write (sw_open 4 []) os = Ok (w, [2; 1; 1; 2; 1]) /\
    sw_dev (sw_overflow pipe_write w) = [[49; 50; 32; 97]; [98; 32; 55]] /\
    exists b b', sr_run (sr_open 3 [[49; 50; 32; 97]; [98; 32; 55]]) [SRead []] = Ok (b, [[]]) /\
      sread_args plain_text [TInt 32 true; TStr 0; TInt 8 false] b = Ok (b', Some (VList [VInt 12; VStr [97; 98]; VInt 7])).
Proof.
  cbv zeta. split.
  - intros (pre & xs & post & E & A & Bd).
    destruct pre as [|? [|? [|? [|? [|? [|? pre]]]]]]; cbn [app] in E; repeat (injection E as ? E; subst); try discriminate.
    all: try (injection E as <- _); vm_compute in A; try (vm_compute in Bd; discriminate); congruence.
  - eexists. split; [vm_compute; reflexivity|]. split; [vm_compute; reflexivity|]. eexists _, _. split; [vm_compute; reflexivity|]. vm_compute. reflexivity.
Qed.
