(** Proofs about the device models. *)
From Coq Require Import ZArith List Bool Lia.
From Verif Require Import Outcome ListLemmas DeviceModel.
Import ListNotations.
Local Open Scope Z_scope.

(** * Specification *)

(** The bytes of a history of writes. *)
Definition written (os : list wop) : list Z := concat (map wop_data os).
Definition sumZ (l : list Z) : Z := fold_right Z.add 0 l.

(** A tape: what has been consumed and what is still to be read. *)
Definition tape := (list Z * list Z)%type.
(** One operation on a tape; [None] for stepping outside. *)
Definition tape_step (t : tape) (o : sop) : option (tape * (list Z + Z)) :=
  let '(before, rest) := t in
  match o with
  | SWrite w => Some ((before, rest ++ wop_data w), inr (lenZ (wop_data w)))
  | SRead RGet =>
      match rest with [] => None | c :: r => Some ((before ++ [c], r), inl [c]) end
  | SRead (RRead n) => Some ((before ++ firstn n rest, skipn n rest), inl (firstn n rest))
  | SMove k =>
      let p := lenZ before + k in
      if (0 <=? p) && (p <=? lenZ before + lenZ rest)
      then Some ((firstn (Z.to_nat p) (before ++ rest), skipn (Z.to_nat p) (before ++ rest)), inl [])
      else None
  end.
Fixpoint tape_run (t : tape) (os : list sop) : option (tape * list (list Z + Z)) :=
  match os with
  | [] => Some (t, [])
  | o :: r =>
      match tape_step t o with
      | None => None
      | Some (t1, x) =>
          match tape_run t1 r with
          | None => None
          | Some (t2, xs) => Some (t2, x :: xs)
          end
      end
  end.
(** Reads only. *)
Fixpoint tape_reads (rest : list Z) (os : list rop) : option (list Z * list (list Z)) :=
  match os with
  | [] => Some (rest, [])
  | RGet :: r =>
      match rest with
      | [] => None
      | c :: rest1 =>
          match tape_reads rest1 r with
          | None => None | Some (t, xs) => Some (t, [c] :: xs) end
      end
  | RRead n :: r =>
      match tape_reads (skipn n rest) r with
      | None => None | Some (t, xs) => Some (t, firstn n rest :: xs) end
  end.

(** Bytes handed to the buffered writer. *)
Definition bop_data (o : bop) : list Z := match o with BWrite w => wop_data w | BFlush => [] end.
Definition b_written (os : list bop) : list Z := concat (map bop_data os).
(** Bytes since the last flush. *)
Definition since_flush (os : list bop) : Z :=
  fold_left (fun k o => match o with BWrite w => k + lenZ (wop_data w) | BFlush => 0 end) os 0.
(** A block write that ends on a buffer boundary without starting on one. *)
Definition boundary_hit (n : Z) (os : list bop) : Prop :=
  exists pre xs post, os = pre ++ BWrite (WSpan xs) :: post
    /\ since_flush pre mod n <> 0 /\ (since_flush pre + lenZ xs) mod n = 0.

(** * Lemmas *)
Lemma lenZ_app {A} (a b : list A) : lenZ (a ++ b) = lenZ a + lenZ b.
Proof. unfold lenZ. rewrite app_length. lia. Qed.
Lemma lenZ_nonneg {A} (a : list A) : 0 <= lenZ a.
Proof. unfold lenZ. lia. Qed.
Lemma lenZ_cons {A} x (a : list A) : lenZ (x :: a) = 1 + lenZ a.
Proof. unfold lenZ. cbn [length]. lia. Qed.
Lemma lenZ_nil {A} : lenZ (@nil A) = 0.
Proof. reflexivity. Qed.
Lemma to_nat_lenZ {A} (a : list A) : Z.to_nat (lenZ a) = length a.
Proof. unfold lenZ. lia. Qed.
Lemma lenZ_firstn {A} n (a : list A) : lenZ (firstn n a) = Z.min (Z.of_nat n) (lenZ a).
Proof. unfold lenZ. rewrite firstn_length. lia. Qed.
Lemma lenZ_skipn {A} n (a : list A) : lenZ (skipn n a) = Z.max 0 (lenZ a - Z.of_nat n).
Proof. unfold lenZ. rewrite skipn_length. lia. Qed.
Lemma size_t_small x : 0 <= x < 2 ^ 64 -> size_t x = x.
Proof. intro H. unfold size_t. now apply Z.mod_small. Qed.

Lemma store_length {A} (l : list A) p xs :
  0 <= p -> p + lenZ xs <= lenZ l -> length (store l p xs) = length l.
Proof.
  intros Hp H. unfold store, lenZ in *. rewrite !app_length, firstn_length, skipn_length. lia.
Qed.

Lemma firstn_le_app {A} n (a b : list A) : (n <= length a)%nat -> firstn n (a ++ b) = firstn n a.
Proof. intro H. rewrite firstn_app. replace (n - length a)%nat with 0%nat by lia. now rewrite firstn_O, app_nil_r. Qed.
Lemma firstn_eq_app {A} n (a b : list A) : length a = n -> firstn n (a ++ b) = a.
Proof. intro H. rewrite firstn_le_app by lia. rewrite <- H. apply firstn_all. Qed.
Lemma skipn_eq_app {A} n (a b : list A) : length a = n -> skipn n (a ++ b) = b.
Proof. intro H. rewrite skipn_app, H, Nat.sub_diag. rewrite <- H, skipn_all. reflexivity. Qed.
Lemma skipn_ge_app {A} n (a b : list A) : (length a <= n)%nat -> skipn n (a ++ b) = skipn (n - length a) b.
Proof. intro H. rewrite skipn_app. now rewrite skipn_all2 by lia. Qed.

(** A stored block followed by nothing but the old tail. *)
Lemma store_app {A} (a b xs : list A) p :
  p = lenZ a -> (length xs <= length b)%nat ->
  store (a ++ b) p xs = a ++ xs ++ skipn (length xs) b.
Proof.
  intros -> H. unfold store. rewrite to_nat_lenZ, firstn_eq_app by reflexivity.
  do 2 f_equal. rewrite skipn_ge_app by lia. f_equal. lia.
Qed.
Lemma store_span_app (a b xs : list Z) p :
  p = lenZ a -> (length xs <= length b)%nat ->
  store_span (a ++ b) p xs = Ok (a ++ xs ++ skipn (length xs) b).
Proof.
  intros Hp H. unfold store_span. pose proof (lenZ_nonneg a). pose proof (lenZ_nonneg xs).
  destruct (Z.eqb_spec (lenZ xs) 0) as [E|E].
  - destruct xs; [reflexivity|]. rewrite lenZ_cons in E. pose proof (lenZ_nonneg xs). lia.
  - replace ((0 <=? p) && (p + lenZ xs <=? lenZ (a ++ b))) with true.
    + f_equal. now apply store_app.
    + symmetry. rewrite andb_true_iff, !Z.leb_le, lenZ_app. unfold lenZ in *. lia.
Qed.

(** * Memory device, writing *)
Section MemWrite.
  Variable l : list Z.
  Hypothesis Hl : lenZ l < 2 ^ 64.

  (** The state after data [D] has been offered. *)
  Definition mem_after (D : list Z) : memory :=
    {| m_data := firstn (length l) D ++ skipn (length D) l;
       m_ptr := Z.min (lenZ l) (lenZ D) |}.

  Lemma mem_after_end D : mem_end (mem_after D) = lenZ l.
  Proof. unfold mem_end, mem_after. cbn [m_data]. rewrite lenZ_app, lenZ_firstn, lenZ_skipn. unfold lenZ. lia. Qed.

  Lemma mem_write_after D xs :
    mem_write (mem_after D) xs =
    Ok (mem_after (D ++ xs), Z.min (lenZ l) (lenZ (D ++ xs)) - Z.min (lenZ l) (lenZ D)).
  Proof.
    unfold mem_write. rewrite mem_after_end.
    pose proof (lenZ_nonneg D). pose proof (lenZ_nonneg xs). pose proof (lenZ_nonneg l).
    cbn [m_ptr m_data mem_after]. rewrite size_t_small by lia.
    assert (C : Z.min (lenZ xs) (lenZ l - Z.min (lenZ l) (lenZ D))
                = Z.min (lenZ l) (lenZ (D ++ xs)) - Z.min (lenZ l) (lenZ D))
      by (rewrite lenZ_app; lia).
    rewrite C. set (count := Z.min (lenZ l) (lenZ (D ++ xs)) - Z.min (lenZ l) (lenZ D)) in *.
    rewrite store_span_app.
    - cbn [bind]. f_equal. f_equal. unfold mem_after. f_equal; [|lia].
      rewrite app_assoc. f_equal.
      + rewrite firstn_app. f_equal.
        destruct (Nat.le_gt_cases (length l) (length D)) as [L|L].
        * replace (length l - length D)%nat with 0%nat by lia.
          replace (Z.to_nat count) with 0%nat; [now rewrite !firstn_O|].
          unfold count, lenZ. rewrite app_length. lia.
        * destruct (Nat.le_gt_cases (length xs) (length l - length D)) as [M|M].
          -- rewrite !firstn_all2; [reflexivity| |].
             ++ lia.
             ++ unfold count, lenZ. rewrite app_length. lia.
          -- f_equal. unfold count, lenZ. rewrite app_length. lia.
      + rewrite skipn_skipn_add, firstn_length, app_length.
        assert (count = Z.min (lenZ xs) (lenZ l - Z.min (lenZ l) (lenZ D))) by lia.
        destruct (Nat.le_gt_cases (length xs + length D) (length l)) as [M|M].
        * f_equal. unfold lenZ in *. lia.
        * rewrite !skipn_all2; [reflexivity| |]; unfold lenZ in *; lia.
    - rewrite lenZ_firstn. unfold lenZ. reflexivity.
    - rewrite firstn_length, skipn_length. unfold lenZ in *. lia.
  Qed.

  Lemma mem_write_char_after D c :
    mem_write_char (mem_after D) c = mem_write (mem_after D) [c].
  Proof.
    unfold mem_write_char, mem_write. rewrite mem_after_end.
    pose proof (lenZ_nonneg D). pose proof (lenZ_nonneg l).
    cbn [m_ptr m_data mem_after]. rewrite size_t_small by lia.
    destruct (Z.leb_spec (lenZ l) (Z.min (lenZ l) (lenZ D))) as [L|L].
    - replace (Z.min (lenZ [c]) (lenZ l - Z.min (lenZ l) (lenZ D))) with 0 by (cbn; lia).
      change (Z.to_nat 0) with 0%nat. rewrite firstn_O. cbn [bind store_span]. unfold store_span.
      cbn [lenZ length]. change (lenZ (@nil Z) =? 0) with true. cbn [bind].
      unfold mem_after. do 3 f_equal. lia.
    - replace (Z.min (lenZ [c]) (lenZ l - Z.min (lenZ l) (lenZ D))) with 1
        by (rewrite lenZ_cons, lenZ_nil; lia).
      reflexivity.
  Qed.

  Lemma mem_wop_after D o :
    mem_wop (mem_after D) o =
    Ok (mem_after (D ++ wop_data o), Z.min (lenZ l) (lenZ (D ++ wop_data o)) - Z.min (lenZ l) (lenZ D)).
  Proof.
    destruct o; cbn [mem_wop wop_data]; [rewrite mem_write_char_after|]; apply mem_write_after.
  Qed.

  Lemma mem_writes_after os : forall D,
    exists ns, mem_writes (mem_after D) os = Ok (mem_after (D ++ written os), ns)
      /\ length ns = length os
      /\ sumZ ns = Z.min (lenZ l) (lenZ (D ++ written os)) - Z.min (lenZ l) (lenZ D).
  Proof.
    induction os as [|o os IH]; intro D.
    - exists []. cbn. rewrite app_nil_r. repeat split. cbn. lia.
    - destruct (IH (D ++ wop_data o)) as (ns & E & L & S).
      eexists. cbn [mem_writes]. rewrite mem_wop_after. cbn [bind]. rewrite E. cbn [bind].
      replace (D ++ written (o :: os)) with ((D ++ wop_data o) ++ written os)
        by (unfold written; cbn [map concat]; now rewrite app_assoc).
      split; [reflexivity|]. split; [cbn [length]; now rewrite L|].
      cbn [sumZ fold_right]. fold (sumZ ns). rewrite S. lia.
  Qed.

  Lemma mem_open_after : mem_open l = mem_after [].
  Proof.
    unfold mem_open, mem_after. rewrite firstn_nil. cbn [length skipn app]. f_equal.
    change (lenZ (@nil Z)) with 0. pose proof (lenZ_nonneg l). lia.
  Qed.
End MemWrite.

Theorem mem_writes_spec l os :
  lenZ l < 2 ^ 64 ->
  exists m ns, mem_writes (mem_open l) os = Ok (m, ns)
    /\ m_data m = firstn (length l) (written os) ++ skipn (length (written os)) l
    /\ length ns = length os
    /\ sumZ ns = Z.min (lenZ l) (lenZ (written os)).
Proof.
  intro Hl. destruct (mem_writes_after l Hl os []) as (ns & E & L & S).
  rewrite mem_open_after. exists (mem_after l ([] ++ written os)), ns.
  split; [exact E|]. split; [reflexivity|]. split; [exact L|].
  rewrite S. cbn [app]. rewrite lenZ_nil. pose proof (lenZ_nonneg l). lia.
Qed.

(** * Tapes: memory and string devices, reading *)
Lemma at_char_app (a r : list Z) c : at_char (a ++ c :: r) (lenZ a) = c.
Proof. unfold at_char. rewrite to_nat_lenZ. rewrite app_nth2, Nat.sub_diag by lia. reflexivity. Qed.

Lemma slice_app (a b : list Z) p n : p = lenZ a -> slice (a ++ b) p n = firstn (Z.to_nat n) b.
Proof. intros ->. unfold slice. now rewrite to_nat_lenZ, skipn_eq_app. Qed.

Lemma load_span_app (a b : list Z) p n :
  p = lenZ a -> 0 <= n <= lenZ b -> load_span (a ++ b) p n = Ok (firstn (Z.to_nat n) b).
Proof.
  intros Hp Hn. unfold load_span. destruct (Z.eqb_spec n 0) as [->|E]; [reflexivity|].
  pose proof (lenZ_nonneg a).
  replace ((0 <=? p) && (p + n <=? lenZ (a ++ b))) with true.
  - f_equal. now apply slice_app.
  - symmetry. rewrite andb_true_iff, !Z.leb_le, lenZ_app. lia.
Qed.

Lemma firstn_min {A} n (l : list A) : firstn (Nat.min n (length l)) l = firstn n l.
Proof.
  destruct (Nat.le_gt_cases n (length l)).
  - now rewrite Nat.min_l.
  - rewrite Nat.min_r by lia. now rewrite !firstn_all2 by lia.
Qed.

Definition mem_tape (t : tape) : memory := {| m_data := fst t ++ snd t; m_ptr := lenZ (fst t) |}.

Lemma mem_tape_rest t : mem_end (mem_tape t) - m_ptr (mem_tape t) = lenZ (snd t).
Proof. unfold mem_end, mem_tape. cbn. rewrite lenZ_app. lia. Qed.

Lemma mem_input_tape t : mem_input (mem_tape t) = snd t.
Proof. unfold mem_input, mem_tape. cbn. rewrite to_nat_lenZ. now apply skipn_eq_app. Qed.
Lemma mem_peek_cons a c r : mem_peek (mem_tape (a, c :: r)) = c.
Proof.
  unfold mem_peek, mem_end, mem_tape. cbn [m_data m_ptr fst snd].
  rewrite lenZ_app, lenZ_cons. pose proof (lenZ_nonneg r).
  destruct (Z.ltb_spec (lenZ a) (lenZ a + (1 + lenZ r))); [|lia]. apply at_char_app.
Qed.
Lemma mem_peek_nil a : mem_peek (mem_tape (a, [])) = 0.
Proof.
  unfold mem_peek, mem_end, mem_tape. cbn [m_data m_ptr fst snd].
  rewrite app_nil_r. now rewrite Z.ltb_irrefl.
Qed.
Lemma mem_eof_tape t : mem_eof (mem_tape t) = false.
Proof.
  unfold mem_eof. pose proof (mem_tape_rest t). pose proof (lenZ_nonneg (snd t)).
  apply Z.ltb_ge. lia.
Qed.
Lemma mem_get_cons a c r : mem_get (mem_tape (a, c :: r)) = (mem_tape (a ++ [c], r), c).
Proof.
  unfold mem_get. rewrite mem_peek_cons. f_equal. unfold mem_tape. cbn [m_data m_ptr fst snd].
  rewrite <- app_assoc, lenZ_app. reflexivity.
Qed.
Lemma mem_read_tape a r n :
  lenZ (a ++ r) < 2 ^ 64 ->
  mem_read (mem_tape (a, r)) (Z.of_nat n) = Ok (mem_tape (a ++ firstn n r, skipn n r), firstn n r).
Proof.
  intro H. unfold mem_read. rewrite mem_tape_rest. cbn [snd].
  rewrite lenZ_app in H. pose proof (lenZ_nonneg a). pose proof (lenZ_nonneg r).
  rewrite size_t_small by lia. cbn [m_data m_ptr mem_tape fst snd].
  rewrite load_span_app by lia. cbn [bind].
  replace (Z.to_nat (Z.min (Z.of_nat n) (lenZ r))) with (Nat.min n (length r)) by (unfold lenZ; lia).
  rewrite firstn_min. do 2 f_equal. unfold mem_tape. cbn [fst snd].
  rewrite <- app_assoc, firstn_skipn. f_equal. rewrite lenZ_app, lenZ_firstn. lia.
Qed.

Theorem mem_reads_tape os : forall a r r1 outs,
  lenZ (a ++ r) < 2 ^ 64 -> tape_reads r os = Some (r1, outs) ->
  exists a1, mem_reads (mem_tape (a, r)) os = Ok (mem_tape (a1, r1), outs)
    /\ a1 = a ++ concat outs /\ r = concat outs ++ r1.
Proof.
  induction os as [|[|n] os IH]; intros a r r1 outs Hl H; cbn [tape_reads] in H.
  - injection H as <- <-. exists a. cbn [mem_reads concat app]. now rewrite app_nil_r.
  - destruct r as [|c r]; [discriminate|].
    destruct (tape_reads r os) as [[t xs]|] eqn:E; [|discriminate]. injection H as <- <-.
    destruct (IH (a ++ [c]) r t xs) as (a1 & R & -> & ->).
    { now rewrite <- app_assoc. } { exact E. }
    eexists. cbn [mem_reads mem_rop]. rewrite mem_get_cons. cbn [bind]. rewrite R. cbn [bind].
    split; [reflexivity|]. cbn [concat app]. now rewrite <- app_assoc.
  - destruct (tape_reads (skipn n r) os) as [[t xs]|] eqn:E; [|discriminate]. injection H as <- <-.
    destruct (IH (a ++ firstn n r) (skipn n r) t xs) as (a1 & R & -> & E2).
    { now rewrite <- app_assoc, firstn_skipn. } { exact E. }
    eexists. cbn [mem_reads mem_rop]. rewrite mem_read_tape by exact Hl. cbn [bind]. rewrite R. cbn [bind].
    split; [reflexivity|]. cbn [concat]. rewrite <- app_assoc. split; [reflexivity|].
    rewrite <- app_assoc, <- E2. now rewrite firstn_skipn.
Qed.

(** A get at the end of the data. *)
Lemma mem_get_nil a :
  let '(m, c) := mem_get (mem_tape (a, [])) in
  c = 0 /\ mem_eof m = true
  /\ forall n, (0 < n)%nat -> lenZ a < 2 ^ 63 -> mem_read m (Z.of_nat n) = UB.
Proof.
  unfold mem_get. rewrite mem_peek_nil. cbn [mem_tape fst snd m_data m_ptr].
  split; [reflexivity|]. split.
  - unfold mem_eof, mem_end. cbn [m_data m_ptr]. rewrite app_nil_r. apply Z.ltb_lt. lia.
  - intros n Hn Ha. unfold mem_read, mem_end. cbn [m_data m_ptr]. rewrite app_nil_r.
    replace (lenZ a - (lenZ a + 1)) with (-1) by lia. change (size_t (-1)) with (2 ^ 64 - 1).
    unfold load_span. destruct (Z.eqb_spec (Z.min (Z.of_nat n) (2 ^ 64 - 1)) 0) as [E|E]; [lia|].
    replace (lenZ a + 1 + Z.min (Z.of_nat n) (2 ^ 64 - 1) <=? lenZ a) with false
      by (symmetry; apply Z.leb_gt; lia).
    now rewrite andb_false_r.
Qed.

(** * String device *)
Definition s_tape (t : tape) : sdev := {| s_str := fst t ++ snd t; s_pos := lenZ (fst t) |}.
Definition sop_data (o : sop) : list Z := match o with SWrite w => wop_data w | _ => [] end.

Lemma s_step_tape t o t1 x :
  lenZ (fst t ++ snd t) + lenZ (sop_data o) < 2 ^ 63 ->
  tape_step t o = Some (t1, x) ->
  s_step (s_tape t) o = Ok (s_tape t1, x)
  /\ lenZ (fst t1 ++ snd t1) = lenZ (fst t ++ snd t) + lenZ (sop_data o).
Proof.
  destruct t as [a r]. cbn [fst snd]. intros H S.
  pose proof (lenZ_nonneg a). pose proof (lenZ_nonneg r). rewrite lenZ_app in H.
  destruct o as [[c|xs]|[|n]|k]; cbn [tape_step wop_data sop_data] in *.
  - injection S as <- <-. cbn [s_step s_write_char]. unfold s_tape. cbn [fst snd s_str s_pos].
    rewrite app_assoc. split; [reflexivity|]. rewrite !lenZ_app. lia.
  - injection S as <- <-. cbn [s_step s_write]. unfold s_tape. cbn [fst snd s_str s_pos].
    rewrite app_assoc. split; [reflexivity|]. rewrite !lenZ_app. lia.
  - destruct r as [|c r]; [discriminate|]. injection S as <- <-.
    cbn [s_step s_get]. unfold s_get, s_peek, s_tape. cbn [fst snd s_str s_pos].
    change (lenZ (@nil Z)) with 0 in H. rewrite lenZ_cons in H. rewrite lenZ_app, lenZ_cons.
    pose proof (lenZ_nonneg r).
    destruct (Z.ltb_spec (lenZ a) (lenZ a + (1 + lenZ r))); [|lia].
    rewrite at_char_app, size_t_small by lia. rewrite <- app_assoc. cbn [app].
    change (lenZ (@nil Z)) with 0. rewrite (lenZ_app a [c]). split; [reflexivity|].
    rewrite !lenZ_app, !lenZ_cons. lia.
  - injection S as <- <-. cbn [s_step]. unfold s_read, s_tape. cbn [fst snd s_str s_pos].
    rewrite lenZ_app. replace (lenZ a + lenZ r - lenZ a) with (lenZ r) by lia.
    rewrite lenZ_nil in H. rewrite (size_t_small (lenZ r)) by lia.
    rewrite load_span_app by lia. cbn [bind].
    replace (Z.to_nat (Z.min (Z.of_nat n) (lenZ r))) with (Nat.min n (length r)) by (unfold lenZ; lia).
    rewrite firstn_min, size_t_small by lia. rewrite <- app_assoc, firstn_skipn.
    rewrite (lenZ_app a (firstn n r)), lenZ_firstn. split; [reflexivity|]. rewrite lenZ_app, lenZ_nil. lia.
  - destruct ((0 <=? lenZ a + k) && (lenZ a + k <=? lenZ a + lenZ r)) eqn:C; [|discriminate].
    injection S as <- <-. rewrite andb_true_iff, !Z.leb_le in C. rewrite lenZ_nil in H.
    cbn [s_step]. unfold s_move, s_tape. cbn [fst snd s_str s_pos].
    rewrite firstn_skipn. rewrite size_t_small by lia. rewrite lenZ_app.
    unfold assert_then. destruct (Z.leb_spec (lenZ a + k) (lenZ a + lenZ r)); [|lia]. cbn [bind].
    rewrite lenZ_firstn, lenZ_app, lenZ_nil. split; [|lia].
    do 3 f_equal. lia.
Qed.

Definition s_written (os : list sop) : list Z := concat (map sop_data os).
Definition delivered (xs : list (list Z + Z)) : list Z :=
  concat (map (fun x => match x with inl l => l | inr _ => [] end) xs).

Lemma s_run_tape os : forall t t1 xs,
  lenZ (fst t ++ snd t) + lenZ (s_written os) < 2 ^ 63 ->
  tape_run t os = Some (t1, xs) ->
  s_run (s_tape t) os = Ok (s_tape t1, xs).
Proof.
  induction os as [|o os IH]; intros t t1 xs H R; cbn [tape_run] in R.
  - now injection R as <- <-.
  - destruct (tape_step t o) as [[t2 x]|] eqn:S; [|discriminate].
    destruct (tape_run t2 os) as [[t3 ys]|] eqn:R2; [|discriminate]. injection R as <- <-.
    change (s_written (o :: os)) with (sop_data o ++ s_written os) in H.
    rewrite (lenZ_app (sop_data o)) in H. pose proof (lenZ_nonneg (s_written os)).
    destruct (s_step_tape t o t2 x) as [S1 L]; [lia|exact S|].
    cbn [s_run]. rewrite S1. cbn [bind]. rewrite (IH t2 t3 ys); [reflexivity|lia|exact R2].
Qed.

(** Without repositioning everything put in comes out once and in order. *)
Lemma tape_run_stream os : forall t t1 xs,
  (forall k, ~ In (SMove k) os) -> tape_run t os = Some (t1, xs) ->
  fst t1 = fst t ++ delivered xs /\ delivered xs ++ snd t1 = snd t ++ s_written os.
Proof.
  induction os as [|o os IH]; intros t t1 xs N R; cbn [tape_run] in R.
  - injection R as <- <-. cbn. now rewrite !app_nil_r.
  - destruct (tape_step t o) as [[t2 x]|] eqn:S; [|discriminate].
    destruct (tape_run t2 os) as [[t3 ys]|] eqn:R2; [|discriminate]. injection R as <- <-.
    destruct (IH t2 t3 ys) as [E1 E2]; [intros k Hk; apply (N k); now right|exact R2|].
    destruct t as [a r]. destruct o as [w|[|n]|k]; cbn [tape_step] in S.
    + injection S as <- <-. cbn [fst snd] in *. cbn [delivered map concat app].
      fold (delivered ys). split; [exact E1|]. rewrite E2. unfold s_written. cbn [map concat sop_data].
      now rewrite <- app_assoc.
    + destruct r as [|c r]; [discriminate|]. injection S as <- <-. cbn [fst snd] in *.
      unfold delivered, s_written in *. cbn [map concat sop_data app].
      rewrite E1, <- app_assoc. split; [reflexivity|]. now rewrite E2.
    + injection S as <- <-. cbn [fst snd] in *. unfold delivered, s_written in *. cbn [map concat sop_data app].
      rewrite E1, <- !app_assoc. split; [reflexivity|]. rewrite E2, app_assoc, firstn_skipn. reflexivity.
    + exfalso. apply (N k). now left.
Qed.
