(** C146: buffering over devices that take or give less than they are asked for. *)
From Coq Require Import ZArith List Bool Lia.
From Verif Require Import Outcome DeviceModel DeviceProofs BufferProofs ShortModel ShortProofs.
Import ListNotations.
Local Open Scope Z_scope.

(** ** Writing *)

(** Whatever the device does: it is given blocks one after the other that together are the data; what the calls return does not depend
    on it. ([boundary_hit] is the defect of C24, which no device can heal.) *)
Theorem C146_writer : forall D (dwrite : D -> list Z -> D * Z) d0 n os, (0 < n)%nat -> Z.of_nat n < 2 ^ 64 -> ~ boundary_hit (Z.of_nat n) os ->
  exists b blocks, sw_run dwrite (sw_open n d0) os = Ok (b, map (fun o => lenZ (bop_data o)) os) /\
    concat blocks = b_written os /\
    sw_dev (sw_overflow dwrite b) = fold_left (fun d p => fst (dwrite d p)) blocks d0.
Proof.
  intros D dwrite d0 n os H1 H2 NB. destruct (buffered_writer n os H1 H2) as (b & R & I & _).
  assert (S0 : sim dwrite d0 (b_open n) (sw_open n d0)) by (unfold sim, sw_open, b_open; cbn; repeat split; exists []; auto).
  destruct (sim_run dwrite d0 os _ _ _ _ S0 R) as (s & RS & S). exists s.
  pose proof (sim_overflow dwrite d0 _ _ S) as (_ & _ & ps & C & G). exists ps. split; [exact RS|]. split; [|exact G].
  rewrite C. apply I. exact NB.
Qed.
Print Assumptions C146_writer.

(** A device that is full after [cap] characters has the first [cap] characters of the data. *)
Theorem C146_writer_full : forall cap n os, (0 < n)%nat -> Z.of_nat n < 2 ^ 64 -> ~ boundary_hit (Z.of_nat n) os ->
  exists b, sw_run (cap_write cap) (sw_open n []) os = Ok (b, map (fun o => lenZ (bop_data o)) os) /\
    sw_dev (sw_overflow (cap_write cap) b) = firstn cap (b_written os).
Proof.
  intros cap n os H1 H2 NB. destruct (C146_writer _ (cap_write cap) [] n os H1 H2 NB) as (b & ps & R & C & G). exists b. split; [exact R|].
  rewrite G. change (given (cap_write cap) [] ps = firstn cap (b_written os)). rewrite cap_given by (cbn; lia). cbn [app]. now rewrite C.
Qed.
Print Assumptions C146_writer_full.

(** A device that takes some characters of each block has a part of the data, in order. *)
Theorem C146_writer_part : forall taking n os, (0 < n)%nat -> Z.of_nat n < 2 ^ 64 -> ~ boundary_hit (Z.of_nat n) os ->
  exists b, sw_run part_write (sw_open n ([], taking)) os = Ok (b, map (fun o => lenZ (bop_data o)) os) /\
    part (fst (sw_dev (sw_overflow part_write b))) (b_written os).
Proof.
  intros taking n os H1 H2 NB. destruct (C146_writer _ part_write ([], taking) n os H1 H2 NB) as (b & ps & R & C & G). exists b. split; [exact R|].
  rewrite G. destruct (part_given ps [] taking) as (s & E & P). unfold given in E. rewrite E. cbn [app]. rewrite <- C. exact P.
Qed.
Print Assumptions C146_writer_part.

(** Finding: the client is not told. A device that takes nothing: every call returns the number of characters it was given. *)
Theorem C146_writer_unreported_refuted : forall n os, (0 < n)%nat -> Z.of_nat n < 2 ^ 64 -> ~ boundary_hit (Z.of_nat n) os ->
  exists b, sw_run (cap_write 0) (sw_open n []) os = Ok (b, map (fun o => lenZ (bop_data o)) os) /\ sw_dev (sw_overflow (cap_write 0) b) = [].
Proof. intros n os H1 H2 NB. destruct (C146_writer_full 0 n os H1 H2 NB) as (b & R & E). exists b. split; [exact R|exact E]. Qed.
Print Assumptions C146_writer_unreported_refuted.

(** Finding: what a device did not take is not given to it again; what follows is written next to what came before. *)
Theorem C146_writer_gap_refuted : exists n os taking b ns, ~ boundary_hit (Z.of_nat n) os /\
  sw_run part_write (sw_open n ([], taking)) os = Ok (b, ns) /\ b_written os = [1; 2; 3; 4; 5] /\ fst (sw_dev (sw_overflow part_write b)) = [1; 4; 5].
Proof.
  exists 3%nat, [BWrite (WSpan [1; 2; 3; 4]); BWrite (WSpan [5])], [1%nat]. do 2 eexists. split.
  - intros H. apply (hits_spec 3 ltac:(lia) _ 0) in H. vm_compute in H. discriminate.
  - split; [reflexivity|]. split; reflexivity.
Qed.
Print Assumptions C146_writer_gap_refuted.

Example C146_case_writer :
  let os := [BWrite (WSpan [1; 2; 3]); BWrite (WChar 4); BWrite (WSpan [5; 6; 7; 8; 9; 10])] in
  hits 4 0 os = false /\
  match sw_run (cap_write 6) (sw_open 4 []) os with
  | Ok (b, ns) => ns = [3; 1; 6] /\ sw_dev (sw_overflow (cap_write 6) b) = [1; 2; 3; 4; 5; 6]
  | _ => False
  end.
Proof. vm_compute. auto. Qed.

(** ** Reading *)

(** A source that gives its data in pieces of any lengths but 0. Blocks no longer than the buffer: nothing is lost, nothing is out of
    order, and each call gives something unless the data ended. *)
Theorem C146_reader : forall n pieces old os, (0 < n)%nat -> Z.of_nat n < 2 ^ 64 -> Forall (fun p => p <> []) pieces ->
  Forall (fun o => (asked o <= n)%nat) (SRead old :: os) ->
  exists b outs rest, sr_run (sr_open n pieces) (SRead old :: os) = Ok (b, outs) /\ delivers (concat pieces) (SRead old :: os) outs rest.
Proof.
  intros n pieces old os N N64 F FA. inversion FA as [|? ? A1 A2]; subst.
  assert (R : reader_at n (sr_open n pieces) false (concat pieces)).
  { unfold reader_at, sr_open. cbn [sr_buf sr_src sr_ptr sr_end]. split; [apply repeat_length|]. split; [exact F|].
    exists [], [], (repeat 0 n). repeat split. discriminate. }
  destruct (read_at n _ false _ old N N64 A1 R) as (b1 & dst & x & s & E & FX & S & R1 & LX & NX).
  destruct (run_at n os N N64 A2 b1 s R1) as (b2 & outs & rest & E2 & Dl & R2). exists b2, (x :: outs), rest.
  cbn [sr_run sr_step]. rewrite E. cbn [bind]. rewrite FX, E2. cbn [bind]. split; [reflexivity|]. cbn [delivers asked]. split; [exact LX|].
  split; [|exists s; auto]. intros O. apply NX. intros ->. cbn in O. lia.
Qed.
Print Assumptions C146_reader.

(** A source that gives all it was asked for until its end: blocks of any lengths. *)
Theorem C146_reader_whole : forall n src olds rest outs, (0 < n)%nat -> Z.of_nat n < 2 ^ 64 -> olds <> [] ->
  tape_reads src (map (fun old => RRead (length old)) olds) = Some (rest, outs) ->
  exists b, sr_run (sr_open n (match src with [] => [] | _ => [src] end)) (map SRead olds) = Ok (b, outs).
Proof.
  intros n src olds rest outs N N64 NE T. destruct olds as [|old olds]; [congruence|].
  destruct (buffered_reader n src (length old) (map (fun old => RRead (length old)) olds) rest outs N N64 T) as (b & R & _).
  eapply (same_run (old :: olds)); [| |intros; eapply r_read_buf; eassumption|exact R].
  - unfold same_reader, r_open, sr_open. cbn. repeat split.
  - unfold r_open. cbn [r_buf]. unfold lenZ. rewrite repeat_length. lia.
Qed.
Print Assumptions C146_reader_whole.

(** Finding: the first piece is shorter than the buffer, and one character more than the buffer holds is asked for. The call claims one character
    more than the first piece has; that one is what was in the memory of the client before; the first character [z] of
    the second piece is stored out of its place and is never given by any later call. *)
Theorem C146_reader_hole_refuted : forall n c1 z c2 pieces old, (0 < length c1)%nat -> (length c1 < n)%nat -> Z.of_nat n < 2 ^ 64 ->
  Forall (fun p => p <> []) pieces -> length old = S n ->
  exists b dst, sr_read (sr_open n (c1 :: (z :: c2) :: pieces)) old = Ok (b, dst, lenZ c1 + 1) /\
    firstn (Z.to_nat (lenZ c1 + 1)) dst = c1 ++ [nth (length c1) old 0] /\ nth n dst 0 = z /\
    forall os, Forall (fun o => (asked o <= n)%nat) os -> exists b' outs rest, sr_run b os = Ok (b', outs) /\ delivers (c2 ++ concat pieces) os outs rest.
Proof.
  intros n c1 z c2 pieces old L0 L1 N64 F LO. assert (N : (0 < n)%nat) by lia.
  unfold sr_read. change (sr_end (sr_open n (c1 :: (z :: c2) :: pieces))) with 0. change (sr_ptr (sr_open n (c1 :: (z :: c2) :: pieces))) with 0.
  change (size_t (0 - 0)) with 0. assert (LOZ : lenZ old = Z.of_nat n + 1) by (unfold lenZ; lia). rewrite LOZ.
  destruct (Z.ltb_spec (Z.of_nat n + 1) 0); [lia|]. change (load_span (sr_buf (sr_open n (c1 :: (z :: c2) :: pieces))) 0 0) with (Ok (@nil Z)). cbn [bind].
  change (store_span old 0 []) with (Ok old). cbn [bind]. change (sr_src (sr_open n (c1 :: (z :: c2) :: pieces))) with (c1 :: (z :: c2) :: pieces).
  assert (LB : lenZ (sr_buf (sr_open n (c1 :: (z :: c2) :: pieces))) = Z.of_nat n) by (unfold sr_open, lenZ; cbn [sr_buf]; now rewrite repeat_length).
  rewrite LB, Z.sub_0_r. replace ((Z.of_nat n + 1) mod Z.of_nat n) with 1.
  2:{ apply Z.mod_unique_pos with (q := 1); lia. }
  destruct (Z.ltb_spec 1 (Z.of_nat n + 1)); [|lia]. replace (Z.to_nat (Z.of_nat n + 1 - 1)) with n by lia.
  unfold piece_read at 1. destruct (Nat.leb_spec (length c1) n); [|lia].
  rewrite store_span_front by lia. cbn [bind].
  set (b0 := {| sr_buf := sr_buf (sr_open n (c1 :: (z :: c2) :: pieces)); sr_ptr := 0; sr_end := 0; sr_src := (z :: c2) :: pieces |}).
  assert (LB0 : length (sr_buf b0) = n) by (unfold b0, sr_open; cbn [sr_buf]; apply repeat_length).
  assert (F0 : full_pieces (sr_src b0)) by (unfold b0; cbn [sr_src]; constructor; [discriminate|exact F]).
  destruct (underflow_at n b0 N LB0 F0) as ((L2 & F2 & _) & x & P1 & E1 & B1 & LX & C1 & N1).
  assert (X : exists x', x = z :: x').
  { destruct x as [|y x']; [specialize (N1 eq_refl); discriminate|]. unfold b0 in C1. cbn [sr_src concat app] in C1. injection C1 as -> _. eauto. }
  destruct X as (x' & ->). rewrite P1, E1, Z.sub_0_r, lenZ_cons. pose proof (lenZ_nonneg x'). rewrite Z.min_l by lia. cbn [Z.ltb Z.compare].
  rewrite B1, load_span_front by (rewrite lenZ_app, lenZ_cons; pose proof (lenZ_nonneg (skipn (length (z :: x')) (sr_buf b0))); lia). cbn [bind].
  replace (Z.to_nat 1) with 1%nat by reflexivity. cbn [app firstn].
  replace (0 + (Z.of_nat n + 1 - 1)) with (Z.of_nat n) by lia.
  assert (LD : length (c1 ++ skipn (length c1) old) = S n) by (rewrite app_length, skipn_length; lia).
  assert (LF : length (firstn n (c1 ++ skipn (length c1) old)) = n) by (rewrite firstn_length; lia).
  assert (ST : store_span (c1 ++ skipn (length c1) old) (Z.of_nat n) [z] =
    Ok (firstn n (c1 ++ skipn (length c1) old) ++ [z] ++ skipn 1 (skipn n (c1 ++ skipn (length c1) old)))).
  { set (dst := c1 ++ skipn (length c1) old) in *. transitivity (store_span (firstn n dst ++ skipn n dst) (Z.of_nat n) [z]); [now rewrite firstn_skipn|].
    apply store_span_app; [unfold lenZ; now rewrite LF|rewrite skipn_length, LD; cbn [length]; lia]. }
  rewrite ST.
  cbn [bind]. destruct (move_at n (sr_underflow b0) [] [z] x' (skipn (length (z :: x')) (sr_buf b0)) N L2 F2 B1 P1 E1) as (b2 & M & R2).
  change (lenZ [z]) with 1 in M. rewrite M. cbn [bind]. eexists b2, _. split; [rewrite Z.add_0_l; reflexivity|]. split; [|split].
  - replace (Z.to_nat (lenZ c1 + 1)) with (S (length c1)) by (unfold lenZ; lia).
    rewrite firstn_le_app by lia. rewrite firstn_firstn, Nat.min_l by lia.
    rewrite firstn_app, firstn_all2 by lia. f_equal. replace (S (length c1) - length c1)%nat with 1%nat by lia.
    assert (G : (length c1 < length old)%nat) by lia. clear - G.
    destruct (nth_split old 0 G) as (u & w & E & LU). set (y := nth (length c1) old 0) in *. rewrite E. rewrite <- LU at 1. rewrite skipn_eq_app by reflexivity. reflexivity.
  - rewrite app_nth2 by lia. rewrite LF, Nat.sub_diag. reflexivity.
  - intros os FA. unfold b0 in C1. cbn [sr_src concat app] in C1. injection C1 as C1.
    destruct (run_at n os N N64 FA b2 _ R2) as (b' & outs & rest & E & Dl & _). exists b', outs, rest. split; [exact E|]. rewrite C1. exact Dl.
Qed.
Print Assumptions C146_reader_hole_refuted.

Example C146_case_reader :
  omap snd (sr_run (sr_open 4 [[1; 2]; [3]; [4; 5; 6; 7; 8; 9]]) [SRead [0; 0]; SGet; SRead [0; 0; 0; 0]; SRead [0; 0; 0; 0]; SRead [0; 0; 0; 0]; SGet])
  = Ok [[1; 2]; [3]; [4; 5; 6; 7]; [8; 9]; []; []].
Proof. vm_compute. reflexivity. Qed.
Example C146_case_reader_whole :
  tape_reads [1; 2; 3; 4; 5; 6; 7] (map (fun old => RRead (length old)) [[0]; [0; 0; 0; 0]; [0; 0; 0]]) = Some ([], [[1]; [2; 3; 4; 5]; [6; 7]]) /\
  omap snd (sr_run (sr_open 3 [[1; 2; 3; 4; 5; 6; 7]]) (map SRead [[0]; [0; 0; 0; 0]; [0; 0; 0]])) = Ok [[1]; [2; 3; 4; 5]; [6; 7]].
Proof. vm_compute. auto. Qed.
(* Two lines; the second is moved, its first character lost. *)
Example C146_case_reader_hole :
  omap snd (sr_run (sr_open 4 [[1; 2]; [3; 4]]) [SRead [90; 91; 92; 93; 94]; SRead [0; 0]]) = Ok [[1; 2; 92]; [4]].
Proof. vm_compute. reflexivity. Qed.
