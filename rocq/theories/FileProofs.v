(** Proofs about the file device (FileModel.v). *)
From Coq Require Import ZArith Bool List Lia.
From Verif Require Import Outcome FileModel.
Import ListNotations.
Local Open Scope Z_scope.

(** * Specification: a file is a sequence of bytes with a position *)
(** The contents after the bytes are stored from position [p] on; a gap is filled with zeros. *)
Definition overwrite (l : list Z) (p : nat) (xs : list Z) : list Z :=
  match xs with
  | [] => l
  | _ => firstn p l ++ repeat 0 (p - length l) ++ xs ++ skipn (p + length xs) l
  end.

(** What a device with contents [l] and position [p] delivers and contains afterwards;
    [None] where nothing is promised: moves before the beginning and peek at the end. *)
Definition ideal_op (app : bool) (l : list Z) (p : nat) (o : fop) : option (list Z * nat * fres) :=
  match o with
  | FGet => Some (l, (if (p <? length l)%nat then S p else p), RBytes [nth p l 0])
  | FRead n => Some (l, (p + length (firstn n (skipn p l)))%nat, RBytes (firstn n (skipn p l)))
  | FPeek => if (p <? length l)%nat then Some (l, p, RBytes [nth p l 0]) else None
  | FMove off => if Z.of_nat p + off <? 0 then None else Some (l, Z.to_nat (Z.of_nat p + off), RUnit)
  | FPut c => let q := if app then length l else p in
              Some (overwrite l q [c], S q, RCount 1)
  | FWrite xs => let q := if app then length l else p in
                 Some (overwrite l q xs, match xs with [] => p | _ => (q + length xs)%nat end,
                       RCount (Z.of_nat (length xs)))
  | FFlush => Some (l, p, RUnit)
  end.
Fixpoint ideal (app : bool) (l : list Z) (p : nat) (os : list fop) : option (list Z * nat * list fres) :=
  match os with
  | [] => Some (l, p, [])
  | o :: r =>
      match ideal_op app l p o with
      | None => None
      | Some (l1, p1, x) =>
          match ideal app l1 p1 r with
          | None => None
          | Some (l2, p2, xs) => Some (l2, p2, x :: xs)
          end
      end
  end.

(** * Storing bytes *)
Lemma put_at_length l : forall p c, length (put_at l p c) = Nat.max (length l) (S p).
Proof.
  induction l as [|x l IH]; intros p c.
  - induction p; cbn; [reflexivity|]. rewrite IHp. cbn. lia.
  - destruct p; cbn; [lia|]. rewrite IH. lia.
Qed.
Lemma put_at_nth l : forall p c j, nth j (put_at l p c) 0 = if (j =? p)%nat then c else nth j l 0.
Proof.
  induction l as [|x l IH]; intros p c j.
  - revert j. induction p; intros [|j]; cbn; try reflexivity.
    + destruct j; reflexivity.
    + rewrite IHp. destruct (j =? p)%nat; [reflexivity|]. now destruct j.
  - destruct p, j; cbn; try reflexivity. apply IH.
Qed.
Lemma nth_repeat0 j n : nth j (repeat 0 n) 0 = 0.
Proof. revert j. induction n; intros [|j]; cbn; auto. Qed.
Lemma overwrite_length l p xs : xs <> [] -> length (overwrite l p xs) = Nat.max (length l) (p + length xs).
Proof.
  intro H. destruct xs as [|x xs]; [congruence|]. unfold overwrite.
  rewrite !app_length, repeat_length, firstn_length, skipn_length. lia.
Qed.
Lemma overwrite_nth l p xs j : xs <> [] ->
  nth j (overwrite l p xs) 0
  = if (j <? p)%nat then nth j l 0 else if (j <? p + length xs)%nat then nth (j - p) xs 0 else nth j l 0.
Proof.
  intro H. destruct xs as [|x xs]; [congruence|]. unfold overwrite. set (ys := x :: xs). clearbody ys.
  destruct (Nat.ltb_spec j p).
  - destruct (Nat.lt_ge_cases j (length l)).
    + rewrite app_nth1 by (rewrite firstn_length; lia).
      rewrite <- (firstn_skipn p l) at 2. rewrite (app_nth1 _ (skipn p l)) by (rewrite firstn_length; lia). reflexivity.
    + rewrite app_nth2 by (rewrite firstn_length; lia).
      rewrite app_nth1 by (rewrite repeat_length, firstn_length; lia).
      rewrite nth_repeat0, nth_overflow by lia. reflexivity.
  - rewrite app_nth2 by (rewrite firstn_length; lia).
    rewrite app_nth2 by (rewrite repeat_length, firstn_length; lia).
    rewrite firstn_length, repeat_length.
    replace (j - Nat.min p (length l) - (p - length l))%nat with (j - p)%nat by lia.
    destruct (Nat.ltb_spec j (p + length ys)).
    + rewrite app_nth1 by lia. reflexivity.
    + rewrite app_nth2 by lia.
      destruct (Nat.lt_ge_cases j (length l)).
      * rewrite <- (firstn_skipn (p + length ys) l) at 2.
        rewrite (app_nth2 (firstn _ _)) by (rewrite firstn_length; lia).
        rewrite firstn_length. f_equal. lia.
      * rewrite !nth_overflow; try reflexivity; [lia|rewrite skipn_length; lia].
Qed.
Lemma list_ext (a b : list Z) : length a = length b -> (forall j, nth j a 0 = nth j b 0) -> a = b.
Proof. intros H1 H2. apply (nth_ext a b 0 0 H1). auto. Qed.
Lemma put_at_overwrite l p c : put_at l p c = overwrite l p [c].
Proof.
  apply list_ext.
  - rewrite put_at_length, overwrite_length by discriminate. cbn. lia.
  - intro j. rewrite put_at_nth, overwrite_nth by discriminate. cbn [length].
    destruct (Nat.eqb_spec j p) as [->|].
    + rewrite Nat.ltb_irrefl. destruct (Nat.ltb_spec p (p + 1)); [|lia]. now rewrite Nat.sub_diag.
    + destruct (Nat.ltb_spec j p); [reflexivity|]. destruct (Nat.ltb_spec j (p + 1)); [lia|reflexivity].
Qed.
Lemma overwrite_cons l p c xs : overwrite (overwrite l p [c]) (S p) xs = overwrite l p (c :: xs).
Proof.
  destruct xs as [|x xs]; [reflexivity|].
  apply list_ext.
  - rewrite !overwrite_length by discriminate. cbn [length]. lia.
  - intro j. rewrite !overwrite_nth by discriminate. cbn [length].
    destruct (Nat.ltb_spec j (S p)), (Nat.ltb_spec j p), (Nat.ltb_spec j (p + 1)),
      (Nat.ltb_spec j (p + S (S (length xs)))), (Nat.ltb_spec j (S p + S (length xs))); try lia; try reflexivity.
    + replace (j - p)%nat with O by lia. reflexivity.
    + replace (j - p)%nat with (S (j - S p)) by lia. reflexivity.
Qed.
Lemma overwrite_end l xs : overwrite l (length l) xs = l ++ xs.
Proof.
  destruct xs as [|x xs]; [now rewrite app_nil_r|]. unfold overwrite.
  rewrite firstn_all, Nat.sub_diag, skipn_all2 by lia. cbn [repeat app]. now rewrite app_nil_r.
Qed.

(** * One operation follows the specification *)
(** The states the device is in: the indicator is only set when nothing is left. *)
Definition good (s : stream) : Prop :=
  0 <= st_pos s /\ (st_eof s = true -> (length (st_data s) <= Z.to_nat (st_pos s))%nat).
Definition same_rights (s t : stream) : Prop :=
  st_in t = st_in s /\ st_out t = st_out s /\ st_app t = st_app s.

Lemma skipn_cons_nth (l : list Z) p : (p < length l)%nat -> skipn p l = nth p l 0 :: skipn (S p) l.
Proof.
  revert p. induction l as [|x l IH]; intros [|p] H; cbn in H; try lia; [reflexivity|].
  cbn [skipn nth]. apply IH. lia.
Qed.

Lemma fgetc_spec s s1 c : good s -> st_in s = true -> fgetc s = Ok (s1, c) ->
  good s1 /\ same_rights s s1 /\ st_data s1 = st_data s /\ st_disk s1 = st_disk s /\
  let p := Z.to_nat (st_pos s) in
  if (p <? length (st_data s))%nat
  then c = Some (nth p (st_data s) 0) /\ Z.to_nat (st_pos s1) = S p /\ st_eof s1 = false /\ st_last s1 = LIn
       /\ st_pos s1 = st_pos s + 1
  else c = None /\ Z.to_nat (st_pos s1) = p /\ st_eof s1 = true /\ st_pos s1 = st_pos s.
Proof.
  intros (Hp & He) Hin H. unfold fgetc in H. rewrite Hin in H. cbn [negb orb] in H.
  assert (G : (if st_eof s then Ok (s, None)
          else match rest s with
               | [] => Ok ({| st_data := st_data s; st_pos := st_pos s; st_eof := true;
                              st_in := true; st_out := st_out s; st_app := st_app s;
                              st_last := LIn; st_disk := st_disk s |}, None)
               | c :: _ => Ok ({| st_data := st_data s; st_pos := st_pos s + 1; st_eof := false;
                                  st_in := true; st_out := st_out s; st_app := st_app s;
                                  st_last := LIn; st_disk := st_disk s |}, Some c)
               end) = Ok (s1, c)) by (destruct (st_last s); [exact H|exact H|discriminate]).
  clear H. destruct (st_eof s) eqn:E.
  - injection G as <- <-. specialize (He eq_refl).
    repeat split; auto. cbn zeta. destruct (Nat.ltb_spec (Z.to_nat (st_pos s)) (length (st_data s))); [lia|]. auto.
  - unfold rest in G. destruct (Nat.lt_ge_cases (Z.to_nat (st_pos s)) (length (st_data s))) as [L|L].
    + rewrite (skipn_cons_nth _ _ L) in G. injection G as <- <-. cbn zeta.
      apply Nat.ltb_lt in L as L'. rewrite L'.
      repeat split; cbn; try lia; try congruence; auto.
    + rewrite skipn_all2 in G by lia. injection G as <- <-. cbn zeta.
      destruct (Nat.ltb_spec (Z.to_nat (st_pos s)) (length (st_data s))); [lia|].
      repeat split; cbn; auto.
Qed.

Lemma same_rights_trans a b c : same_rights a b -> same_rights b c -> same_rights a c.
Proof. intros (? & ? & ?) (? & ? & ?). repeat split; congruence. Qed.
Lemma same_rights_refl a : same_rights a a.
Proof. repeat split. Qed.

Lemma fread_spec n : forall s s1 xs, good s -> st_in s = true -> fread s n = Ok (s1, xs) ->
  good s1 /\ same_rights s s1 /\ st_data s1 = st_data s /\ st_disk s1 = st_disk s /\
  xs = firstn n (skipn (Z.to_nat (st_pos s)) (st_data s)) /\
  Z.to_nat (st_pos s1) = (Z.to_nat (st_pos s) + length xs)%nat /\
  (st_eof s1 = true <-> st_eof s = true \/ (length xs < n)%nat).
Proof.
  induction n as [|n IH]; intros s s1 xs G Hin H.
  - injection H as <- <-. split; [exact G|]. split; [apply same_rights_refl|]. cbn [length firstn].
    repeat split; try lia; auto. intros [|]; [assumption|lia].
  - cbn [fread] in H. apply bind_Ok in H as ([s2 c] & H1 & H2).
    pose proof (fgetc_spec _ _ _ G Hin H1) as (G2 & R2 & D2 & K2 & C). cbn zeta in C.
    destruct (Nat.ltb_spec (Z.to_nat (st_pos s)) (length (st_data s))) as [L|L].
    + destruct C as (-> & P2 & E2 & _). apply bind_Ok in H2 as ([s3 ys] & H2 & H3). injection H3 as <- <-.
      assert (Hin2 : st_in s2 = true) by (destruct R2; congruence).
      destruct (IH _ _ _ G2 Hin2 H2) as (G3 & R3 & D3 & K3 & X3 & P3 & E3).
      split; [exact G3|]. split; [now apply (same_rights_trans _ s2)|].
      repeat split; try congruence.
      * rewrite (skipn_cons_nth _ _ L). cbn [firstn]. now rewrite X3, D2, P2.
      * cbn [length]. lia.
      * intro H. apply E3 in H as [H|H]; [congruence|]. right. cbn. lia.
      * intros [H|H]; [destruct G as (_ & G); specialize (G H); lia|]. apply E3. right. cbn in H. lia.
    + destruct C as (-> & P2 & E2 & _). injection H2 as <- <-.
      split; [exact G2|]. split; [exact R2|]. rewrite skipn_all2 by lia.
      repeat split; cbn; try congruence; try lia.
Qed.

Lemma fputc_spec s s1 ok c : good s -> st_out s = true -> fputc s c = Ok (s1, ok) ->
  let q := if st_app s then length (st_data s) else Z.to_nat (st_pos s) in
  good s1 /\ same_rights s s1 /\ st_data s1 = overwrite (st_data s) q [c] /\ st_disk s1 = st_disk s /\
  ok = true /\ Z.to_nat (st_pos s1) = S q /\ st_last s1 = LOut.
Proof.
  intros (Hp & He) Ho H. unfold fputc in H. rewrite Ho in H. cbn [negb] in H.
  assert (A : exists p, p = (if st_app s then size_of (st_data s) else st_pos s) /\ 0 <= p /\
     Z.to_nat p = (if st_app s then length (st_data s) else Z.to_nat (st_pos s)) /\
     ok = true /\
     s1 = {| st_data := put_at (st_data s) (Z.to_nat p) c; st_pos := p + 1; st_eof := st_eof s;
             st_in := st_in s; st_out := true; st_app := st_app s;
             st_last := LOut; st_disk := st_disk s |}).
  { exists (if st_app s then size_of (st_data s) else st_pos s). split; [reflexivity|].
    split; [unfold size_of; destruct (st_app s); lia|].
    split; [unfold size_of; destruct (st_app s); [lia|reflexivity]|].
    destruct (st_last s), (st_eof s); try discriminate; injection H as <- <-; auto. }
  destruct A as (p & E & Hp0 & Ep & -> & ->). cbn zeta. rewrite <- Ep.
  split; [|split; [|cbn [st_data st_disk st_pos st_last]; repeat split]].
  - split; [cbn; lia|]. cbn [st_eof st_data st_pos]. intro T. specialize (He T). rewrite put_at_length.
    destruct (st_app s); lia.
  - repeat split. cbn. congruence.
  - apply put_at_overwrite.
  - lia.
Qed.

Lemma fwrite_spec xs : forall s s1 n, good s -> st_out s = true -> fwrite s xs = Ok (s1, n) ->
  let q := if st_app s then length (st_data s) else Z.to_nat (st_pos s) in
  good s1 /\ same_rights s s1 /\ st_data s1 = overwrite (st_data s) q xs /\ st_disk s1 = st_disk s /\
  n = Z.of_nat (length xs) /\
  Z.to_nat (st_pos s1) = match xs with [] => Z.to_nat (st_pos s) | _ => (q + length xs)%nat end /\
  (xs <> [] -> st_last s1 = LOut).
Proof.
  induction xs as [|x xs IH]; intros s s1 n G Ho H; cbn zeta.
  - injection H as <- <-. repeat split; try apply G; congruence.
  - cbn [fwrite] in H. apply bind_Ok in H as ([s2 ok] & H1 & H2).
    destruct (fputc_spec _ _ _ _ G Ho H1) as (G2 & R2 & D2 & K2 & -> & P2 & L2). cbn zeta in D2, P2.
    apply bind_Ok in H2 as ([s3 m] & H2 & H3). injection H3 as <- <-.
    assert (Ho2 : st_out s2 = true) by (destruct R2 as (_ & ? & _); congruence).
    destruct (IH _ _ _ G2 Ho2 H2) as (G3 & R3 & D3 & K3 & -> & P3 & L3). cbn zeta in D3, P3.
    assert (A2 : st_app s2 = st_app s) by apply R2. rewrite A2 in *.
    set (q := if st_app s then length (st_data s) else Z.to_nat (st_pos s)) in *.
    assert (Q : (if st_app s then length (st_data s2) else Z.to_nat (st_pos s2)) = S q).
    { rewrite D2. destruct (st_app s); [|lia]. unfold q. rewrite overwrite_end, app_length. cbn. lia. }
    rewrite Q in *.
    split; [exact G3|]. split; [now apply (same_rights_trans _ s2)|].
    split; [rewrite D3, D2; apply overwrite_cons|].
    split; [congruence|]. split; [cbn [length]; lia|].
    split; [rewrite P3; destruct xs; cbn [length]; lia|].
    intros _. destruct xs; [|apply L3; congruence]. injection H2 as <-. exact L2.
Qed.

Lemma fseek_spec s off s1 : good s -> file_move s off = Ok s1 ->
  good s1 /\ same_rights s s1 /\ st_data s1 = st_data s /\ st_disk s1 = st_data s /\
  0 <= st_pos s + off /\ st_pos s1 = st_pos s + off /\ st_eof s1 = false /\ st_last s1 = LNone.
Proof.
  intros G H. unfold file_move, fseek in H. destruct (Z.ltb_spec (st_pos s + off) 0) as [L|L]; [discriminate|].
  injection H as <-. repeat split; cbn; auto; discriminate.
Qed.

Lemma file_op_spec s o s1 x : good s -> file_op s o = Ok (s1, x) ->
  (forall (P : Prop), st_in s = false -> (o = FGet \/ o = FPeek \/ exists n, o = FRead n) -> P) ->
  (forall (P : Prop), st_out s = false -> ((exists c, o = FPut c) \/ exists xs, o = FWrite xs) -> P) ->
  forall l p y, ideal_op (st_app s) (st_data s) (Z.to_nat (st_pos s)) o = Some (l, p, y) ->
  good s1 /\ same_rights s s1 /\ st_data s1 = l /\ Z.to_nat (st_pos s1) = p /\ x = y.
Proof.
  intros G H Hin Hout l p y I.
  assert (Ci : (o = FGet \/ o = FPeek \/ exists n, o = FRead n) -> st_in s = true).
  { intro C. destruct (st_in s) eqn:E; [reflexivity|]. now apply (Hin _ eq_refl). }
  assert (Co : ((exists c, o = FPut c) \/ exists xs, o = FWrite xs) -> st_out s = true).
  { intro C. destruct (st_out s) eqn:E; [reflexivity|]. now apply (Hout _ eq_refl). }
  clear Hin Hout. destruct o; cbn [file_op ideal_op] in H, I.
  - apply bind_Ok in H as ([s2 c] & H & H2). injection H2 as <- <-.
    unfold file_get in H. apply bind_Ok in H as ([s3 d] & H & H3). injection H3 as <- <-.
    pose proof (fgetc_spec _ _ _ G (Ci (or_introl eq_refl)) H) as (G2 & R2 & D2 & K2 & C). cbn zeta in C.
    injection I as <- <- <-. destruct (Nat.ltb_spec (Z.to_nat (st_pos s)) (length (st_data s))).
    + destruct C as (-> & P & _). repeat split; auto; apply G2 || apply R2.
    + destruct C as (-> & P & _). rewrite nth_overflow by lia. repeat split; auto; apply G2 || apply R2.
  - apply bind_Ok in H as ([s2 c] & H & H2). injection H2 as <- <-.
    pose proof (fread_spec _ _ _ _ G (Ci (or_intror (or_intror (ex_intro _ _ eq_refl)))) H) as (G2 & R2 & D2 & K2 & X2 & P2 & _).
    injection I as <- <- <-. subst c. repeat split; auto; apply G2 || apply R2.
  - destruct (Nat.ltb_spec (Z.to_nat (st_pos s)) (length (st_data s))) as [L|L]; [|discriminate].
    apply bind_Ok in H as ([s2 c] & H & H2). injection H2 as <- <-.
    unfold file_peek, file_get in H. apply bind_Ok in H as ([s3 d] & H & H3).
    apply bind_Ok in H as ([s4 e] & H & H4). injection H4 as <- <-.
    apply bind_Ok in H3 as (s5 & H3 & H5). injection H5 as <- <-.
    pose proof (fgetc_spec _ _ _ G (Ci (or_intror (or_introl eq_refl))) H) as (G2 & R2 & D2 & K2 & C). cbn zeta in C.
    apply Nat.ltb_lt in L as L'. rewrite L' in C. destruct C as (-> & P & _ & _ & P').
    destruct (fseek_spec _ _ _ G2 H3) as (G3 & R3 & D3 & _ & _ & P3 & _).
    injection I as <- <- <-. split; [exact G3|]. split; [now apply (same_rights_trans _ s4)|].
    split; [congruence|]. split; [|reflexivity]. rewrite P3, P'. f_equal. lia.
  - apply bind_Ok in H as (s2 & H & H2). injection H2 as <- <-.
    destruct (fseek_spec _ _ _ G H) as (G3 & R3 & D3 & _ & P & P3 & _).
    rewrite Z2Nat.id in I by apply G. destruct (Z.ltb_spec (st_pos s + off) 0); [lia|].
    injection I as <- <- <-. split; [exact G3|]. split; [exact R3|]. split; [exact D3|]. split; [now rewrite P3|reflexivity].
  - apply bind_Ok in H as ([s2 k] & H & H2). injection H2 as <- <-.
    unfold file_put in H. apply bind_Ok in H as ([s3 ok] & H & H3). injection H3 as <- <-.
    destruct (fputc_spec _ _ _ _ G (Co (or_introl (ex_intro _ _ eq_refl))) H) as (G2 & R2 & D2 & K2 & -> & P2 & _).
    injection I as <- <- <-. auto.
  - apply bind_Ok in H as ([s2 k] & H & H2). injection H2 as <- <-.
    destruct (fwrite_spec _ _ _ _ G (Co (or_intror (ex_intro _ _ eq_refl))) H) as (G2 & R2 & D2 & K2 & -> & P2 & _).
    injection I as <- <- <-. auto.
  - injection H as <- <-. injection I as <- <- <-. destruct G as (Gp & Ge).
    repeat split; auto.
Qed.

(** The operations a mode provides: get, peek and read exist for input modes, write for output
    modes. *)
Definition provided (m : Z) (o : fop) : bool :=
  match o with
  | FGet | FRead _ | FPeek => is_in m
  | FPut _ | FWrite _ | FFlush => is_out m
  | FMove _ => is_in m
  end.

Lemma file_run_spec os : forall s s1 rs, good s ->
  (forall o, In o os -> (o = FGet \/ o = FPeek \/ exists n, o = FRead n) -> st_in s = true) ->
  (forall o, In o os -> (exists c, o = FPut c) \/ (exists xs, o = FWrite xs) -> st_out s = true) ->
  file_run s os = Ok (s1, rs) ->
  forall l p ys, ideal (st_app s) (st_data s) (Z.to_nat (st_pos s)) os = Some (l, p, ys) ->
  good s1 /\ same_rights s s1 /\ st_data s1 = l /\ rs = ys.
Proof.
  induction os as [|o os IH]; intros s s1 rs G Hi Ho H l p ys I.
  - injection H as <- <-. injection I as <- <- <-. repeat split; apply G.
  - cbn [file_run ideal] in H, I. apply bind_Ok in H as ([s2 x] & H1 & H2).
    apply bind_Ok in H2 as ([s3 xs] & H2 & H3). injection H3 as <- <-.
    destruct (ideal_op (st_app s) (st_data s) (Z.to_nat (st_pos s)) o) as [[[l1 p1] y]|] eqn:E; [|discriminate].
    destruct (file_op_spec s o s2 x G H1) with (l := l1) (p := p1) (y := y) as (G2 & R2 & D2 & P2 & ->); auto.
    { intros P F C. rewrite (Hi o (or_introl eq_refl) C) in F. discriminate. }
    { intros P F C. rewrite (Ho o (or_introl eq_refl) C) in F. discriminate. }
    destruct (ideal (st_app s) l1 p1 os) as [[[l2 p2] zs]|] eqn:E2; [|discriminate].
    injection I as <- <- <-.
    destruct R2 as (Ri & Ro & Ra).
    destruct (IH s2 s3 xs G2) with (l := l2) (p := p2) (ys := zs) as (G3 & R3 & D3 & ->); auto.
    + intros o' J C. rewrite Ri. apply (Hi o'); [now right|exact C].
    + intros o' J C. rewrite Ro. apply (Ho o'); [now right|exact C].
    + now rewrite Ra, D2, P2.
    + split; [exact G3|]. split; [|auto]. destruct R3 as (? & ? & ?). repeat split; congruence.
Qed.

(** * Opening *)
(** The modes: the lower four bits, of which one of in, out, app is set. *)
Definition valid_mode (m : Z) : Prop := 0 <= m < 256 /\ (is_in m = true \/ is_out m = true).

Lemma land_low m k : 0 <= k <= 15 -> Z.land m k = Z.land (Z.land m 15) k.
Proof.
  intro H. rewrite <- Z.land_assoc. f_equal.
  assert (E : k = 0 \/ k = 1 \/ k = 2 \/ k = 3 \/ k = 4 \/ k = 5 \/ k = 6 \/ k = 7 \/ k = 8 \/ k = 9 \/ k = 10 \/ k = 11
    \/ k = 12 \/ k = 13 \/ k = 14 \/ k = 15) by lia.
  repeat destruct E as [->|E]; try reflexivity. now subst.
Qed.
Lemma low_cases m : 0 <= m -> exists k, Z.land m 15 = k /\ (k = 0 \/ k = 1 \/ k = 2 \/ k = 3 \/ k = 4 \/ k = 5 \/ k = 6 \/ k = 7
   \/ k = 8 \/ k = 9 \/ k = 10 \/ k = 11 \/ k = 12 \/ k = 13 \/ k = 14 \/ k = 15).
Proof.
  intro H. exists (Z.land m 15). split; [reflexivity|].
  assert (E : Z.land m 15 = m mod 16) by (exact (Z.land_ones m 4 ltac:(lia))). rewrite E.
  pose proof (Z.mod_pos_bound m 16 ltac:(lia)). lia.
Qed.

Definition has (m f : Z) : bool := Z.land m f =? f.

Lemma open_spec m disk : valid_mode m ->
  match open_file m disk with
  | Ok s => st_in s = is_in m /\ st_out s = is_out m /\
            st_app s = (has m m_app && negb (has m m_trunc)) /\ good s /\ st_pos s = 0 /\ st_last s = LNone /\
            st_eof s = false /\ st_disk s = st_data s /\
            st_data s = (if has m m_out && negb (has m m_app) then [] else match disk with None => [] | Some l => l end)
  | AssertFail => disk = None /\ (is_out m = false \/ has m m_trunc = true)
  | _ => False
  end.
Proof.
  intros (Hm & V). unfold is_in, is_out, has in *.
  rewrite (land_low m m_in), (land_low m (Z.lor m_out m_app)) in * by (split; vm_compute; discriminate).
  rewrite !(land_low m m_app), (land_low m m_trunc), (land_low m m_out) by (split; vm_compute; discriminate).
  unfold open_file, mode_index. destruct (low_cases m ltac:(lia)) as (k & Ek & E). rewrite Ek in *. clear Ek.
  repeat destruct E as [->|E]; try subst k; cbn in V; try (destruct V; discriminate); destruct disk as [l|]; cbn; unfold good; cbn;
    repeat split; auto; try discriminate; try lia.
Qed.

(** * Reading *)
(** A sequence of reads of a stream that is not about to write never fails. *)
Definition read_only (o : fop) : bool :=
  match o with FGet | FRead _ | FPeek | FMove _ => true | _ => false end.
Lemma fgetc_ok s : st_last s <> LOut -> exists s1 c, fgetc s = Ok (s1, c) /\ st_last s1 <> LOut.
Proof.
  intro H. unfold fgetc. destruct (negb (st_in s) || st_eof s).
  - exists s, None. destruct (st_last s) eqn:E; try congruence; split; congruence.
  - destruct (rest s); destruct (st_last s) eqn:E; try congruence; do 2 eexists; split; try reflexivity; cbn; discriminate.
Qed.
Lemma fread_ok n : forall s, st_last s <> LOut -> exists s1 xs, fread s n = Ok (s1, xs) /\ st_last s1 <> LOut.
Proof.
  induction n as [|n IH]; intros s H; [now exists s, []|].
  destruct (fgetc_ok s H) as (s1 & c & E & H1). cbn [fread]. rewrite E. cbn [bind].
  destruct c as [c|]; [|now exists s1, []].
  destruct (IH s1 H1) as (s2 & xs & E2 & H2). rewrite E2. cbn [bind]. now exists s2, (c :: xs).
Qed.
Lemma read_op_ok s o y l p : good s -> st_in s = true -> st_last s <> LOut -> read_only o = true ->
  ideal_op (st_app s) (st_data s) (Z.to_nat (st_pos s)) o = Some (l, p, y) ->
  exists s1 x, file_op s o = Ok (s1, x) /\ st_last s1 <> LOut.
Proof.
  intros G Hi H R I. destruct o; try discriminate; cbn [file_op ideal_op] in *.
  - destruct (fgetc_ok s H) as (s1 & c & E & H1). unfold file_get. rewrite E. cbn [bind]. eauto.
  - destruct (fread_ok n s H) as (s1 & c & E & H1). unfold file_read. rewrite E. cbn [bind]. eauto.
  - destruct (Nat.ltb_spec (Z.to_nat (st_pos s)) (length (st_data s))) as [L|]; [|discriminate].
    destruct (fgetc_ok s H) as (s1 & c & E & H1). unfold file_peek, file_get. rewrite E. cbn [bind].
    pose proof (fgetc_spec _ _ _ G Hi E) as (G2 & _ & _ & _ & C). cbn zeta in C.
    apply Nat.ltb_lt in L as L'. rewrite L' in C. destruct C as (-> & _ & _ & _ & P).
    unfold file_move, fseek. rewrite P. destruct (Z.ltb_spec (st_pos s + 1 + -1) 0); [destruct G; lia|].
    cbn. do 2 eexists. split; [reflexivity|]. cbn. discriminate.
  - rewrite Z2Nat.id in I by apply G. unfold file_move, fseek.
    destruct (Z.ltb_spec (st_pos s + off) 0); [discriminate|]. cbn. do 2 eexists. split; [reflexivity|]. cbn. discriminate.
Qed.
Lemma reads_ok os : forall s l p ys, good s -> st_in s = true -> st_last s <> LOut -> forallb read_only os = true ->
  ideal (st_app s) (st_data s) (Z.to_nat (st_pos s)) os = Some (l, p, ys) ->
  exists s1, file_run s os = Ok (s1, ys).
Proof.
  induction os as [|o os IH]; intros s l p ys G Hi H R I.
  - injection I as <- <- <-. now exists s.
  - cbn [forallb] in R. apply andb_true_iff in R as (R1 & R2). cbn [ideal] in I.
    destruct (ideal_op (st_app s) (st_data s) (Z.to_nat (st_pos s)) o) as [[[l1 p1] y]|] eqn:E; [|discriminate].
    destruct (read_op_ok s o y l1 p1 G Hi H R1 E) as (s1 & x & E1 & H1).
    destruct (file_op_spec s o s1 x G E1) with (l := l1) (p := p1) (y := y) as (G2 & (Ri & Ro & Ra) & D2 & P2 & ->); auto.
    { intros P F _. congruence. }
    { intros P F [(c & ->)|(c & ->)]; discriminate. }
    destruct (ideal (st_app s) l1 p1 os) as [[[l2 p2] zs]|] eqn:E2; [|discriminate].
    injection I as <- <- <-.
    destruct (IH s1 l2 p2 zs G2) as (s2 & E3); try congruence.
    exists s2. cbn [file_run]. rewrite E1. cbn [bind]. rewrite E3. reflexivity.
Qed.

(** * Writing *)
Definition write_only (o : fop) : bool :=
  match o with FPut _ | FWrite _ | FFlush => true | _ => false end.
Definition written (o : fop) : list Z :=
  match o with FPut c => [c] | FWrite xs => xs | _ => [] end.

(** With append the contents only grow at the end, wherever the position is. *)
Lemma append_op s o s1 x : good s -> st_app s = true -> st_out s = true -> file_op s o = Ok (s1, x) ->
  good s1 /\ st_app s1 = true /\ st_out s1 = true /\ st_data s1 = st_data s ++ written o.
Proof.
  intros G A O H.
  assert (NI : forall c s2, fgetc s = Ok (s2, c) -> good s2 /\ st_app s2 = true /\ st_out s2 = true /\ st_data s2 = st_data s).
  { intros c s2 E. destruct (st_in s) eqn:Ei.
    - pose proof (fgetc_spec _ _ _ G Ei E) as (G2 & (? & ? & ?) & D & _). repeat split; try apply G2; congruence.
    - unfold fgetc in E. rewrite Ei in E. cbn [negb orb] in E.
      destruct (st_last s); try discriminate; injection E as <- <-; repeat split; auto; apply G. }
  destruct o; cbn [file_op written] in *; try rewrite app_nil_r.
  - apply bind_Ok in H as ([s2 c] & H & H2). injection H2 as <- <-.
    unfold file_get in H. apply bind_Ok in H as ([s3 d] & H & H3). injection H3 as <- <-. now apply (NI d).
  - apply bind_Ok in H as ([s2 c] & H & H2). injection H2 as <- <-.
    destruct (st_in s) eqn:Ei.
    + pose proof (fread_spec _ _ _ _ G Ei H) as (G2 & (? & ? & ?) & D & _). repeat split; try apply G2; congruence.
    + unfold file_read in H. destruct n; cbn [fread] in H.
      * injection H as <- <-. auto.
      * apply bind_Ok in H as ([s3 d] & H & H3).
        assert (d = None). { unfold fgetc in H. rewrite Ei in H. cbn [negb orb] in H. destruct (st_last s); congruence. }
        subst d. injection H3 as <- <-. now apply (NI None).
  - apply bind_Ok in H as ([s2 c] & H & H2). injection H2 as <- <-.
    unfold file_peek, file_get in H. apply bind_Ok in H as ([s3 d] & H & H3).
    apply bind_Ok in H as ([s4 e] & H & H4). injection H4 as <- <-.
    apply bind_Ok in H3 as (s5 & H3 & H5). injection H5 as <- <-.
    destruct (NI e s4 H) as (G2 & A2 & O2 & D2).
    destruct (fseek_spec _ _ _ G2 H3) as (G3 & (? & ? & ?) & D3 & _). repeat split; try apply G3; congruence.
  - apply bind_Ok in H as (s2 & H & H2). injection H2 as <- <-.
    destruct (fseek_spec _ _ _ G H) as (G3 & (? & ? & ?) & D3 & _). repeat split; try apply G3; congruence.
  - apply bind_Ok in H as ([s2 k] & H & H2). injection H2 as <- <-.
    unfold file_put in H. apply bind_Ok in H as ([s3 ok] & H & H3). injection H3 as <- <-.
    destruct (fputc_spec _ _ _ _ G O H) as (G2 & (? & ? & ?) & D2 & _). rewrite A, overwrite_end in D2.
    repeat split; try apply G2; congruence.
  - apply bind_Ok in H as ([s2 k] & H & H2). injection H2 as <- <-.
    destruct (fwrite_spec _ _ _ _ G O H) as (G2 & (? & ? & ?) & D2 & _). rewrite A, overwrite_end in D2.
    repeat split; try apply G2; congruence.
  - injection H as <- <-. repeat split; auto; apply G.
Qed.
Lemma append_run os : forall s s1 rs, good s -> st_app s = true -> st_out s = true -> file_run s os = Ok (s1, rs) ->
  good s1 /\ st_out s1 = true /\ st_data s1 = st_data s ++ concat (map written os).
Proof.
  induction os as [|o os IH]; intros s s1 rs G A O H.
  - injection H as <- <-. cbn. rewrite app_nil_r. auto.
  - cbn [file_run] in H. apply bind_Ok in H as ([s2 x] & H1 & H2).
    apply bind_Ok in H2 as ([s3 xs] & H2 & H3). injection H3 as <- <-.
    destruct (append_op _ _ _ _ G A O H1) as (G2 & A2 & O2 & D2).
    destruct (IH _ _ _ G2 A2 O2 H2) as (G3 & O3 & D3).
    repeat split; try apply G3; auto. rewrite D3, D2, <- app_assoc. reflexivity.
Qed.

(** Writing alone never fails and everything is taken. *)
Lemma fputc_ok s c : st_out s = true -> st_last s <> LIn -> exists s1, fputc s c = Ok (s1, true) /\ st_last s1 = LOut.
Proof.
  intros O H. unfold fputc. rewrite O. cbn [negb].
  destruct (st_last s); try congruence; eexists; split; reflexivity.
Qed.
Lemma fwrite_ok xs : forall s, st_out s = true -> st_last s <> LIn ->
  exists s1, fwrite s xs = Ok (s1, Z.of_nat (length xs)) /\ st_last s1 <> LIn /\ st_out s1 = true.
Proof.
  induction xs as [|x xs IH]; intros s O H; [exists s; repeat split; auto|].
  destruct (fputc_ok s x O H) as (s1 & E & L). cbn [fwrite]. rewrite E. cbn [bind].
  assert (O1 : st_out s1 = true).
  { unfold fputc in E. rewrite O in E. cbn [negb] in E. destruct (st_last s), (st_eof s); try discriminate; injection E as <-; reflexivity. }
  destruct (IH s1 O1 ltac:(congruence)) as (s2 & E2 & L2 & O2). rewrite E2. cbn [bind].
  exists s2. split; [f_equal; f_equal; cbn [length]; lia|auto].
Qed.
Lemma fputc_out s c s1 b : fputc s c = Ok (s1, b) -> st_out s1 = st_out s.
Proof.
  unfold fputc. destruct (st_out s) eqn:O; cbn [negb]; [|congruence].
  destruct (st_last s), (st_eof s); try discriminate; intro H; injection H as <- <-; reflexivity.
Qed.
Definition count_of (o : fop) : fres :=
  match o with FFlush => RUnit | o => RCount (Z.of_nat (length (written o))) end.
Lemma writes_ok os : forall s, st_out s = true -> st_last s <> LIn -> forallb write_only os = true ->
  exists s1, file_run s os = Ok (s1, map count_of os).
Proof.
  induction os as [|o os IH]; intros s O H W; [now exists s|].
  cbn [forallb] in W. apply andb_true_iff in W as (W1 & W2).
  assert (E : exists s1, file_op s o = Ok (s1, count_of o) /\ st_last s1 <> LIn /\ st_out s1 = true).
  { destruct o; try discriminate; cbn [file_op].
    - destruct (fputc_ok s c O H) as (s1 & E & L). unfold file_put. rewrite E. cbn [bind].
      exists s1. split; [reflexivity|]. split; [congruence|]. now rewrite (fputc_out _ _ _ _ E).
    - destruct (fwrite_ok xs s O H) as (s1 & E & L & O1). unfold file_write. rewrite E. cbn [bind]. now exists s1.
    - exists (file_flush s). split; [reflexivity|]. split; [|exact O]. cbn. destruct (st_last s); congruence. }
  destruct E as (s1 & E & L & O1). destruct (IH s1 O1 L W2) as (s2 & E2).
  exists s2. cbn [file_run map]. rewrite E. cbn [bind]. now rewrite E2.
Qed.
(** The specification of writing from the current position. *)
Lemma overwrite_app l p xs ys : overwrite (overwrite l p xs) (p + length xs) ys = overwrite l p (xs ++ ys).
Proof.
  revert l p. induction xs as [|x xs IH]; intros l p; cbn [length app].
  - now rewrite Nat.add_0_r.
  - rewrite <- (overwrite_cons l p x xs), <- (overwrite_cons l p x (xs ++ ys)), <- IH. f_equal. lia.
Qed.
Lemma ideal_writes os : forall l p, forallb write_only os = true ->
  exists q, ideal false l p os = Some (overwrite l p (concat (map written os)), q, map count_of os).
Proof.
  induction os as [|o os IH]; intros l p W; [now exists p|].
  cbn [forallb] in W. apply andb_true_iff in W as (W1 & W2).
  destruct o; try discriminate; cbn [ideal ideal_op map concat written count_of].
  - destruct (IH (overwrite l p [c]) (S p) W2) as (q & E). rewrite E. exists q.
    rewrite <- (overwrite_app l p [c]). cbn [length]. rewrite Nat.add_1_r. reflexivity.
  - destruct xs as [|x xs].
    + destruct (IH l p W2) as (q & E). cbn [overwrite]. rewrite E. now exists q.
    + destruct (IH (overwrite l p (x :: xs)) (p + length (x :: xs))%nat W2) as (q & E). rewrite E. exists q.
      now rewrite overwrite_app.
  - destruct (IH l p W2) as (q & E). rewrite E. now exists q.
Qed.

(** * The end of the file *)
Lemma file_get_end s : good s -> st_in s = true -> st_last s <> LOut -> (length (st_data s) <= Z.to_nat (st_pos s))%nat ->
  exists s1, file_get s = Ok (s1, 0) /\ st_eof s1 = true /\ st_data s1 = st_data s /\ st_pos s1 = st_pos s /\
    good s1 /\ st_in s1 = true /\ st_last s1 <> LOut.
Proof.
  intros G I L H. destruct (fgetc_ok s L) as (s1 & c & E & L1).
  pose proof (fgetc_spec _ _ _ G I E) as (G1 & (R & _) & D & _ & C). cbn zeta in C.
  destruct (Nat.ltb_spec (Z.to_nat (st_pos s)) (length (st_data s))); [lia|].
  destruct C as (-> & _ & E1 & P). exists s1. unfold file_get. rewrite E. cbn [bind]. repeat split; try apply G1; congruence.
Qed.

(** * Line buffering *)
(** The part of the bytes up to the last line feed, and what follows it. *)
Definition is_head (xs h : list Z) : Prop :=
  exists t, xs = h ++ t /\ ~ In 10 t /\ (h = [] \/ exists h', h = h' ++ [10]).

Lemma last_line_spec xs : is_head xs (firstn (last_line (rev xs)) xs).
Proof.
  induction xs as [|c xs IH] using rev_ind.
  - exists []. cbn. auto.
  - rewrite rev_app_distr. cbn [rev app last_line]. destruct (Z.eqb_spec c 10) as [->|N].
    + replace (length (10 :: rev xs)) with (length (xs ++ [10])) by (rewrite app_length; cbn; rewrite rev_length; lia).
      rewrite firstn_all. exists []. rewrite app_nil_r. repeat split; auto. right. eauto.
    + assert (last_line (rev xs) <= length xs)%nat.
      { rewrite <- (rev_length xs). generalize (rev xs). clear.
        induction l as [|a l IHl]; cbn [last_line length]; [lia|]. destruct (a =? 10); cbn [length]; lia. }
      rewrite firstn_app. replace (last_line (rev xs) - length xs)%nat with O by lia.
      cbn [firstn]. rewrite app_nil_r. destruct IH as (t & E & Nt & H').
      exists (t ++ [c]). split; [rewrite E at 1; now rewrite app_assoc|]. split; [|exact H'].
      intro K. apply in_app_or in K as [K|[K|[]]]; auto.
Qed.
Lemma last_line_zero xs : last_line (rev xs) = O <-> ~ In 10 xs.
Proof.
  destruct (last_line_spec xs) as (t & E & N & H). split.
  - intro Z0. rewrite Z0 in E. cbn in E. now subst.
  - intro K. destruct H as [H|(h' & H)].
    + destruct (last_line (rev xs)) eqn:F; [reflexivity|]. destruct xs as [|x xs]; discriminate.
    + exfalso. apply K. rewrite E, H. apply in_or_app. left. apply in_or_app. right. now left.
Qed.

Lemma line_write_spec s xs : good s -> st_out s = true -> st_last s <> LIn ->
  exists s1, line_write_effect s xs = Ok s1 /\ good s1 /\ st_out s1 = true /\ st_app s1 = st_app s /\ st_last s1 <> LIn /\
    (let q := if st_app s then length (st_data s) else Z.to_nat (st_pos s) in
     st_data s1 = overwrite (st_data s) q xs /\
     (xs <> [] -> Z.to_nat (st_pos s1) = (q + length xs)%nat) /\
     (xs = [] -> s1 = s) /\
     (In 10 xs -> st_disk s1 = overwrite (st_data s) q (firstn (last_line (rev xs)) xs)) /\
     (~ In 10 xs -> st_disk s1 = st_disk s)).
Proof.
  intros G O L. unfold line_write_effect. set (k := last_line (rev xs)).
  destruct (Nat.eqb_spec k 0) as [E|E].
  - assert (N : ~ In 10 xs) by now apply last_line_zero. rewrite E. cbn [skipn bind].
    destruct (fwrite_ok xs s O L) as (s1 & E1 & L1 & O1).
    destruct (fwrite_spec _ _ _ _ G O E1) as (G1 & (_ & _ & A1) & D1 & K1 & _ & P1 & _).
    unfold file_write. rewrite E1. cbn [bind]. exists s1. cbn zeta.
    repeat split; auto; try apply G1; try congruence.
    + intro H. rewrite P1. destruct xs; congruence.
    + intros ->. cbn in E1. congruence.
  - assert (N : In 10 xs).
    { destruct (in_dec Z.eq_dec 10 xs); [assumption|]. exfalso. apply E. now apply last_line_zero. }
    destruct (fwrite_ok (firstn k xs) s O L) as (s1 & E1 & L1 & O1).
    destruct (fwrite_spec _ _ _ _ G O E1) as (G1 & (_ & _ & A1) & D1 & K1 & _ & P1 & _).
    unfold file_write. rewrite E1. cbn [bind].
    assert (Hx : xs <> []) by (intros ->; contradiction).
    assert (Hf : firstn k xs <> []) by (destruct xs; [congruence|destruct k; [congruence|discriminate]]).
    set (q := if st_app s then length (st_data s) else Z.to_nat (st_pos s)) in *.
    destruct (fwrite_ok (skipn k xs) (file_flush s1)) as (s2 & E2 & L2 & O2).
    { exact O1. } { cbn. destruct (st_last s1); congruence. }
    assert (G1' : good (file_flush s1)) by exact G1.
    destruct (fwrite_spec _ _ _ _ G1' O1 E2) as (G2 & (_ & _ & A2) & D2 & K2 & _ & P2 & _).
    cbn [file_flush fflush st_app st_data st_pos st_disk] in A2, D2, K2, P2.
    rewrite E2. cbn [bind]. exists s2. cbn zeta.
    assert (Q : (if st_app s1 then length (st_data s1) else Z.to_nat (st_pos s1)) = (q + length (firstn k xs))%nat).
    { rewrite A1. destruct (st_app s) eqn:As.
      - unfold q. rewrite D1. unfold q. rewrite overwrite_end, app_length. reflexivity.
      - rewrite P1. destruct (firstn k xs); [congruence|reflexivity]. }
    assert (LL : (length (firstn k xs) + length (skipn k xs) = length xs)%nat)
      by (rewrite <- app_length, firstn_skipn; reflexivity).
    repeat split; auto; try apply G2; try congruence.
    + rewrite D2, Q, D1, overwrite_app, firstn_skipn. reflexivity.
    + intros _. rewrite P2. destruct (skipn k xs) as [|y ys] eqn:Sk.
      * rewrite P1. destruct (firstn k xs) eqn:Fk; [congruence|]. cbn [length] in *. lia.
      * rewrite Q. lia.
Qed.

(** Reading lines: what fgets delivers. *)
Fixpoint line_part (n : nat) (l : list Z) : list Z :=
  match n, l with
  | O, _ | _, [] => []
  | S n, c :: r => if c =? 10 then [c] else c :: line_part n r
  end.
Lemma fgets_loop_spec n : forall s, good s -> st_in s = true -> st_last s <> LOut ->
  exists s1, let r := skipn (Z.to_nat (st_pos s)) (st_data s) in
    fgets_loop s n = Ok (s1, line_part n r) /\ good s1 /\ st_in s1 = true /\ st_last s1 <> LOut /\
    st_data s1 = st_data s /\ Z.to_nat (st_pos s1) = (Z.to_nat (st_pos s) + length (line_part n r))%nat.
Proof.
  induction n as [|n IH]; intros s G I L; cbn zeta.
  - exists s. cbn. repeat split; auto; try apply G.
  - destruct (fgetc_ok s L) as (s1 & c & E & L1).
    pose proof (fgetc_spec _ _ _ G I E) as (G1 & (R & _) & D & _ & C). cbn zeta in C.
    cbn [fgets_loop]. rewrite E. cbn [bind].
    destruct (Nat.ltb_spec (Z.to_nat (st_pos s)) (length (st_data s))) as [H|H].
    + destruct C as (-> & P & _). rewrite (skipn_cons_nth _ _ H). cbn [line_part].
      destruct (nth (Z.to_nat (st_pos s)) (st_data s) 0 =? 10).
      * exists s1. repeat split; auto; try apply G1; try congruence. cbn. lia.
      * destruct (IH s1 G1 ltac:(congruence) L1) as (s2 & E2 & G2 & I2 & L2 & D2 & P2). cbn zeta in E2, P2.
        rewrite E2. cbn [bind]. rewrite P, D in *. exists s2. repeat split; auto; try apply G2; try congruence.
        cbn [length]. lia.
    + destruct C as (-> & P & _). rewrite skipn_all2 by lia. cbn [line_part]. exists s1.
      repeat split; auto; try apply G1; try congruence. cbn. lia.
Qed.
Lemma strlen_nozero xs : ~ In 0 xs -> strlen xs = length xs.
Proof.
  induction xs as [|x xs IH]; intro H; [reflexivity|]. cbn. destruct (Z.eqb_spec x 0) as [->|].
  - exfalso. apply H. now left.
  - f_equal. apply IH. intro. apply H. now right.
Qed.
Lemma line_part_in n l x : In x (line_part n l) -> In x l.
Proof.
  revert n. induction l as [|c l IH]; intros [|n]; cbn; try tauto.
  destruct (c =? 10); cbn; [tauto|]. intros [->|H]; [now left|right; eauto].
Qed.
Lemma line_part_prefix n l : line_part n l = firstn (length (line_part n l)) l.
Proof.
  revert n. induction l as [|c l IH]; intros [|n]; cbn; try reflexivity.
  destruct (c =? 10); cbn; [reflexivity|]. now rewrite <- IH.
Qed.
Lemma line_read_spec s n : good s -> st_in s = true -> st_last s <> LOut -> ~ In 0 (st_data s) ->
  exists s1, let r := skipn (Z.to_nat (st_pos s)) (st_data s) in
    line_read s (S n) = Ok (s1, line_part n r) /\ good s1 /\ st_in s1 = true /\ st_last s1 <> LOut /\
    st_data s1 = st_data s /\ Z.to_nat (st_pos s1) = (Z.to_nat (st_pos s) + length (line_part n r))%nat.
Proof.
  intros G I L N. destruct (fgets_loop_spec n s G I L) as (s1 & E & A). cbn zeta in *.
  exists s1. split; [|exact A]. unfold line_read, fgets. rewrite E. cbn [bind].
  set (r := skipn _ _) in *.
  assert (K : firstn (strlen (line_part n r)) (line_part n r) = line_part n r).
  { rewrite strlen_nozero; [apply firstn_all|]. intro H. apply N. apply line_part_in in H. unfold r in H.
    rewrite <- (firstn_skipn (Z.to_nat (st_pos s)) (st_data s)). apply in_or_app. now right. }
  destruct (line_part n r) eqn:F; [destruct n|]; cbn [bind]; try reflexivity. now rewrite K.
Qed.

(** * Consequences in the terms of the interface *)
Lemma ideal_read_app a b os : forall l p, forallb read_only os = true -> ideal a l p os = ideal b l p os.
Proof.
  induction os as [|o os IH]; intros l p R; [reflexivity|].
  cbn [forallb] in R. apply andb_true_iff in R as (R1 & R2). cbn [ideal].
  replace (ideal_op b l p o) with (ideal_op a l p o) by (destruct o; try discriminate; reflexivity).
  destruct (ideal_op a l p o) as [[[l1 p1] x]|]; [|reflexivity]. now rewrite (IH l1 p1 R2).
Qed.

(** The contents right after opening. *)
Definition start (m : Z) (l : list Z) : list Z := if has m m_out && negb (has m m_app) then [] else l.
(** The modes that append: app is set, but not all of in, out and app. *)
Definition appends (m : Z) : bool := has m m_app && negb (has m m_trunc).

Lemma open_some m l : valid_mode m ->
  exists s, open_file m (Some l) = Ok s /\ st_in s = is_in m /\ st_out s = is_out m /\ st_app s = appends m /\
    good s /\ st_pos s = 0 /\ st_last s = LNone /\ st_eof s = false /\ st_disk s = st_data s /\ st_data s = start m l.
Proof.
  intro V. pose proof (open_spec m (Some l) V) as H. destruct (open_file m (Some l)) as [s| | | |]; try tauto.
  - exists s. tauto.
  - destruct H; discriminate.
Qed.
Lemma close_data s : file_close s = st_data s.
Proof. unfold file_close, fclose. now destruct (st_out s). Qed.

Lemma read_main m l os l1 p ys : valid_mode m -> is_in m = true -> forallb read_only os = true ->
  ideal false (start m l) 0 os = Some (l1, p, ys) ->
  exists s s1, open_file m (Some l) = Ok s /\ file_run s os = Ok (s1, ys) /\ file_close s1 = start m l.
Proof.
  intros V I R H. destruct (open_some m l V) as (s & E & Ei & Eo & Ea & G & P & L & _ & _ & D).
  rewrite (ideal_read_app false (st_app s)) in H by exact R.
  replace O with (Z.to_nat (st_pos s)) in H by now rewrite P. rewrite <- D in H.
  destruct (reads_ok os s l1 p ys G ltac:(congruence) ltac:(congruence) R H) as (s1 & E1).
  exists s, s1. split; [exact E|]. split; [exact E1|]. rewrite close_data.
  destruct (file_run_spec os s s1 ys G) with (l := l1) (p := p) (ys := ys) as (_ & _ & D1 & _); auto.
  - intros. congruence.
  - intros o J K. exfalso. apply (proj1 (forallb_forall _ _) R) in J. destruct K as [(c & ->)|(c & ->)]; discriminate.
  - rewrite D1, <- D. clear - H R. revert H. generalize (st_data s), (Z.to_nat (st_pos s)).
    revert p ys. generalize (st_app s). induction os as [|o os IH]; intros a p ys l q H.
    + injection H as <- _ _. reflexivity.
    + cbn [forallb] in R. apply andb_true_iff in R as (R1 & R2). cbn [ideal] in H.
      assert (K : forall l2 q2 x, ideal_op a l q o = Some (l2, q2, x) -> l2 = l).
      { intros l2 q2 x K. destruct o; try discriminate; cbn [ideal_op] in K; try congruence.
        - destruct (q <? length l)%nat; congruence.
        - destruct (Z.of_nat q + off <? 0); congruence. }
      destruct (ideal_op a l q o) as [[[l2 q2] x]|]; [|discriminate]. rewrite (K _ _ _ eq_refl) in H.
      destruct (ideal a l q2 os) as [[[l3 q3] z]|] eqn:E3; [|discriminate]. injection H as <- _ _.
      now apply (IH R2 a q3 z l q2).
Qed.

Lemma update_main m l s os s1 rs l1 p ys : valid_mode m -> appends m = false ->
  forallb (provided m) os = true -> open_file m (Some l) = Ok s -> file_run s os = Ok (s1, rs) ->
  ideal false (start m l) 0 os = Some (l1, p, ys) -> rs = ys /\ file_close s1 = l1.
Proof.
  intros V A Pr E R I. destruct (open_some m l V) as (s' & E' & Ei & Eo & Ea & G & P & L & _ & _ & D).
  rewrite E in E'. injection E' as <-.
  assert (K := proj1 (forallb_forall _ _) Pr).
  destruct (file_run_spec os s s1 rs G) with (l := l1) (p := p) (ys := ys) as (_ & _ & D1 & ->); auto.
  - intros o J C. rewrite Ei. specialize (K o J). destruct C as [->|[->|(n & ->)]]; exact K.
  - intros o J C. rewrite Eo. specialize (K o J). destruct C as [(n & ->)|(n & ->)]; exact K.
  - now rewrite Ea, A, P, D.
  - split; [reflexivity|]. now rewrite close_data.
Qed.

Lemma append_main m l s os s1 rs : valid_mode m -> appends m = true ->
  open_file m (Some l) = Ok s -> file_run s os = Ok (s1, rs) ->
  file_close s1 = l ++ concat (map written os).
Proof.
  intros V A E R. destruct (open_some m l V) as (s' & E' & Ei & Eo & Ea & G & P & L & _ & _ & D).
  rewrite E in E'. injection E' as <-. rewrite close_data.
  destruct (append_run os s s1 rs G ltac:(congruence)) as (_ & _ & H); [|exact R|].
  - rewrite Eo. unfold appends, has in A. unfold is_out. apply andb_true_iff in A as (A & _). apply Z.eqb_eq in A.
    rewrite Z.land_lor_distr_r, A. apply Z.ltb_lt. destruct V as ((V0 & _) & _).
    assert (Z.land m m_out = 0 \/ Z.land m m_out = m_out) as [->| ->].
    { rewrite (land_low m m_out) by (split; vm_compute; discriminate).
      destruct (low_cases m V0) as (k & -> & C). clear - C.
      repeat destruct C as [->|C]; try subst k; cbn; auto. }
    + reflexivity.
    + reflexivity.
  - rewrite H, D. unfold start, appends in *. apply andb_true_iff in A as (-> & _). now rewrite andb_false_r.
Qed.

Lemma write_main m l os : valid_mode m -> is_out m = true -> forallb write_only os = true ->
  exists s s1, open_file m (Some l) = Ok s /\ file_run s os = Ok (s1, map count_of os) /\
    file_close s1 = if appends m then l ++ concat (map written os)
                    else overwrite (start m l) 0 (concat (map written os)).
Proof.
  intros V O W. destruct (open_some m l V) as (s & E & Ei & Eo & Ea & G & P & L & _ & _ & D).
  destruct (writes_ok os s ltac:(congruence) ltac:(congruence) W) as (s1 & R).
  exists s, s1. split; [exact E|]. split; [exact R|]. destruct (appends m) eqn:A.
  - now apply (append_main m l s os s1 (map count_of os)).
  - destruct (ideal_writes os (start m l) 0 W) as (q & I).
    apply (update_main m l s os s1 (map count_of os) _ q (map count_of os) V A); auto.
    apply forallb_forall. intros o J. apply (proj1 (forallb_forall _ _) W) in J. destruct o; try discriminate; exact O.
Qed.

(** The end of the file is noticed when more was asked for than there is. *)
Definition demand (o : fop) : nat := match o with FGet => 1 | FRead n => n | _ => 0 end.
Definition plain_read (o : fop) : bool := match o with FGet | FRead _ => true | _ => false end.
Lemma eof_run os : forall s s1 rs, good s -> st_in s = true -> forallb plain_read os = true -> file_run s os = Ok (s1, rs) ->
  (st_eof s1 = true <-> st_eof s = true \/ (length (st_data s) < Z.to_nat (st_pos s) + list_sum (map demand os))%nat
                        /\ list_sum (map demand os) <> O).
Proof.
  induction os as [|o os IH]; intros s s1 rs G I R H.
  - injection H as <- <-. cbn. split; [auto|]. intros [|(_ & K)]; [assumption|congruence].
  - cbn [forallb] in R. apply andb_true_iff in R as (R1 & R2). cbn [file_run] in H.
    apply bind_Ok in H as ([s2 x] & H1 & H2). apply bind_Ok in H2 as ([s3 xs] & H2 & H3). injection H3 as <- <-.
    assert (S2 : good s2 /\ st_in s2 = true /\ st_data s2 = st_data s /\
       (st_eof s2 = true <-> st_eof s = true \/ (length (st_data s) < Z.to_nat (st_pos s) + demand o)%nat /\ demand o <> O) /\
       ((length (st_data s) < Z.to_nat (st_pos s) + demand o)%nat /\ demand o <> O \/
         Z.to_nat (st_pos s2) = (Z.to_nat (st_pos s) + demand o)%nat)).
    { destruct o; try discriminate; cbn [file_op demand] in *.
      - apply bind_Ok in H1 as ([s4 c] & H1 & H4). injection H4 as <- <-.
        unfold file_get in H1. apply bind_Ok in H1 as ([s5 d] & H1 & H5). injection H5 as <- <-.
        pose proof (fgetc_spec _ _ _ G I H1) as (G2 & (Ri & _) & D2 & _ & C). cbn zeta in C.
        split; [exact G2|]. split; [congruence|]. split; [exact D2|].
        destruct (Nat.ltb_spec (Z.to_nat (st_pos s)) (length (st_data s))).
        + destruct C as (_ & P & -> & _). split; [|right; lia]. split; [discriminate|].
          intros [K|K]; [|lia]. destruct G as (_ & G). specialize (G K). lia.
        + destruct C as (_ & P & -> & _). split; [|left; lia]. split; [|reflexivity]. intros _. right. lia.
      - apply bind_Ok in H1 as ([s4 c] & H1 & H4). injection H4 as <- <-.
        destruct (fread_spec _ _ _ _ G I H1) as (G2 & (Ri & _) & D2 & _ & X & P & Ef).
        assert (Lc : length c = Nat.min n (length (st_data s) - Z.to_nat (st_pos s))) by (rewrite X, firstn_length, skipn_length; reflexivity).
        split; [exact G2|]. split; [congruence|]. split; [exact D2|]. split.
        + rewrite Ef. split; (intros [K|K]; [left; exact K|right; lia]).
        + lia. }
    destruct S2 as (G2 & I2 & D2 & E2 & P2). rewrite (IH s2 s3 xs G2 I2 R2 H2), E2, D2.
    cbn [map list_sum fold_right]. fold (list_sum (map demand os)).
    destruct P2 as [P2|P2]; [|rewrite P2]; split; intro K.
    + right. lia.
    + left. right. lia.
    + destruct K as [[K|K]|K]; [left; exact K|right; lia|right; lia].
    + destruct K as [K|K]; [left; left; exact K|]. destruct (Nat.eq_dec (list_sum (map demand os)) 0); [left; right; lia|right; lia].
Qed.
Lemma eof_main m l s os s1 rs : valid_mode m -> is_in m = true -> forallb plain_read os = true ->
  open_file m (Some l) = Ok s -> file_run s os = Ok (s1, rs) ->
  (file_eof s1 = true <-> (length (start m l) < list_sum (map demand os))%nat).
Proof.
  intros V I R E H. destruct (open_some m l V) as (s' & E' & Ei & Eo & Ea & G & P & L & Ee & _ & D).
  rewrite E in E'. injection E' as <-. unfold file_eof.
  rewrite (eof_run os s s1 rs G ltac:(congruence) R H), P, Ee, D. cbn [Z.to_nat Nat.add].
  split; [intros [K|K]; [discriminate|lia]|]. intro K. right. lia.
Qed.

(** Peek at the end steps back. *)
Lemma peek_end m l : valid_mode m -> is_in m = true -> start m l = l ->
  (l <> [] -> exists s s1, open_file m (Some l) = Ok s /\
     file_run s [FRead (length l); FPeek; FGet] = Ok (s1, [RBytes l; RBytes [0]; RBytes [last l 0]])) /\
  (l = [] -> exists s, open_file m (Some l) = Ok s /\ file_run s [FPeek] = AssertFail).
Proof.
  intros V I St. destruct (open_some m l V) as (s & E & Ei & Eo & Ea & G & P & L & Ee & _ & D).
  rewrite St in D. split; intro H.
  - exists s. cbn [file_run file_op].
    destruct (fread_ok (length l) s ltac:(congruence)) as (s1 & xs & E1 & L1). unfold file_read. rewrite E1. cbn [bind].
    destruct (fread_spec _ _ _ _ G ltac:(congruence) E1) as (G1 & (Ri & _) & D1 & _ & X1 & P1 & Ef1).
    rewrite P, D in X1. cbn [Z.to_nat skipn] in X1. rewrite firstn_all in X1. subst xs.
    rewrite P in P1. cbn [Z.to_nat Nat.add] in P1.
    destruct (file_get_end s1 G1 ltac:(congruence) L1) as (s2 & E2 & F2 & D2 & P2 & G2 & I2 & L2); [rewrite D1, D, P1; lia|].
    unfold file_peek. rewrite E2. cbn [bind].
    assert (Pz : st_pos s2 = Z.of_nat (length l)) by (destruct G1; lia).
    assert (Ln : (0 < length l)%nat) by (destruct l; [congruence|cbn; lia]).
    unfold file_move, fseek. rewrite Pz. destruct (Z.ltb_spec (Z.of_nat (length l) + -1) 0); [lia|].
    cbn [assert_then bind].
    set (s3 := {| st_data := st_data s2 |}) || set (s3 := Build_stream _ _ _ _ _ _ _ _).
    assert (G3 : good s3) by (split; cbn; [lia|discriminate]).
    destruct (fgetc_ok s3) as (s4 & c & E4 & L4); [cbn; discriminate|].
    pose proof (fgetc_spec _ _ _ G3 I2 E4) as (_ & _ & _ & _ & C). cbn zeta in C.
    replace (Z.to_nat (st_pos s3)) with (length l - 1)%nat in C by (cbn; lia).
    assert (D3 : st_data s3 = l) by (cbn; congruence). rewrite D3 in C.
    destruct (Nat.ltb_spec (length l - 1) (length l)); [|lia]. destruct C as (-> & _).
    unfold file_get. rewrite E4. cbn [bind]. exists s4. split; [exact E|]. do 4 f_equal.
    do 3 f_equal. clear - Ln. destruct (exists_last (l := l)) as (l' & x & ->); [destruct l; [cbn in Ln; lia|discriminate]|].
    rewrite last_last, app_length, app_nth2 by (cbn; lia). cbn [length]. replace (length l' + 1 - 1 - length l')%nat with O by lia. reflexivity.
  - exists s. split; [exact E|]. cbn [file_run file_op].
    destruct (file_get_end s G ltac:(congruence) ltac:(congruence)) as (s2 & E2 & F2 & D2 & P2 & G2 & I2 & L2).
    { rewrite D, H. cbn. lia. }
    unfold file_peek. rewrite E2. cbn [bind]. unfold file_move, fseek. rewrite P2, P. reflexivity.
Qed.

(** Turning from writing to reading and back. *)
Lemma turn_main m l c : valid_mode m -> is_in m = true -> is_out m = true -> start m l <> [] ->
  exists s, open_file m (Some l) = Ok s /\
    file_run s [FPut c; FGet] = UB /\ file_run s [FGet; FPut c] = UB /\ file_run s [FGet; FFlush; FPut c] = UB /\
    (exists s1 rs, file_run s [FPut c; FFlush; FGet] = Ok (s1, rs)) /\
    (exists s1 rs, file_run s [FPut c; FMove 0; FGet; FMove 0; FPut c] = Ok (s1, rs)).
Proof.
  intros V I O N. destruct (open_some m l V) as (s & E & Ei & Eo & Ea & G & P & L & Ee & _ & D).
  exists s. split; [exact E|].
  destruct (fputc_ok s c ltac:(congruence) ltac:(congruence)) as (s1 & E1 & L1).
  destruct (fputc_spec _ _ _ _ G ltac:(congruence) E1) as (G1 & (Ri1 & Ro1 & Ra1) & _).
  destruct (fgetc_ok s ltac:(congruence)) as (s2 & d & E2 & L2).
  pose proof (fgetc_spec _ _ _ G ltac:(congruence) E2) as (G2 & (Ri2 & Ro2 & Ra2) & D2 & _ & C). cbn zeta in C.
  rewrite P, D in C. assert (0 < length (start m l))%nat by (destruct (start m l); [congruence|cbn; lia]).
  cbn [Z.to_nat] in C. destruct (Nat.ltb_spec 0 (length (start m l))); [|lia]. destruct C as (-> & _ & F2 & Ls2 & _).
  cbn [file_run file_op]. unfold file_put, file_get. rewrite E1, E2. cbn [bind].
  split; [|split; [|split; [|split]]].
  - unfold fgetc. rewrite L1. reflexivity.
  - unfold fputc. rewrite Ro2, Eo, O. cbn [negb]. rewrite Ls2, F2. reflexivity.
  - unfold fputc. cbn [file_flush fflush st_out st_last st_eof]. rewrite Ro2, Eo, O. cbn [negb]. rewrite Ls2, F2. reflexivity.
  - destruct (fgetc_ok (file_flush s1)) as (s3 & e & E3 & _); [cbn; rewrite L1; discriminate|]. rewrite E3. cbn [bind]. eauto.
  - unfold file_move, fseek. destruct (Z.ltb_spec (st_pos s1 + 0) 0); [destruct G1; lia|]. cbn [assert_then bind].
    set (s3 := Build_stream _ _ _ _ _ _ _ _).
    destruct (fgetc_ok s3) as (s4 & e & E4 & L4); [cbn; discriminate|].
    assert (G3 : good s3) by (destruct G1; split; cbn; [lia|discriminate]).
    pose proof (fgetc_spec _ _ _ G3 ltac:(cbn; congruence) E4) as (G4 & (Ri4 & Ro4 & Ra4) & _).
    rewrite E4. cbn [bind]. destruct (Z.ltb_spec (st_pos s4 + 0) 0); [destruct G4; lia|]. cbn [assert_then bind].
    set (s5 := Build_stream _ _ _ _ _ _ _ _).
    destruct (fputc_ok s5 c) as (s6 & E6 & _); [cbn; rewrite Ro4; cbn; congruence|cbn; discriminate|].
    rewrite E6. cbn [bind]. eauto.
Qed.

(** Line buffering *)
Lemma is_head_app_l a b h : is_head b h -> h <> [] -> is_head (a ++ b) (a ++ h).
Proof.
  intros (t & -> & N & [E|(h' & E)]) Hh; [congruence|].
  exists t. rewrite app_assoc. repeat split; auto. right. exists (a ++ h'). now rewrite E, app_assoc.
Qed.
Lemma is_head_app_r a b h : is_head a h -> ~ In 10 b -> is_head (a ++ b) h.
Proof.
  intros (t & -> & N & E) Nb. exists (t ++ b). rewrite app_assoc. repeat split; auto.
  intro K. apply in_app_or in K as [K|K]; auto.
Qed.
Lemma is_head_unique xs h h' : is_head xs h -> is_head xs h' -> h = h'.
Proof.
  assert (A : forall h h' t t', h ++ t = h' ++ t' -> ~ In 10 t -> ~ In 10 t' ->
    (h = [] \/ exists k, h = k ++ [10]) -> (length h' <= length h)%nat -> h = h').
  { intros a a' t t' E N N' Ea L. 
    assert (exists d, a = a' ++ d /\ t' = d ++ t) as (d & E1 & E2).
    { exists (skipn (length a') a).
      assert (F : firstn (length a') a = a').
      { assert (K : firstn (length a') (a ++ t) = firstn (length a') (a' ++ t')) by now rewrite E.
        rewrite !firstn_app, firstn_all, Nat.sub_diag in K.
        replace (length a' - length a)%nat with O in K by lia. cbn [firstn] in K. now rewrite !app_nil_r in K. }
      assert (Ea' : a = a' ++ skipn (length a') a) by (rewrite <- F at 1; now rewrite firstn_skipn).
      split; [exact Ea'|]. rewrite Ea', <- app_assoc in E. now apply app_inv_head in E. }
    destruct d as [|x d]; [now rewrite E1, app_nil_r|]. exfalso.
    destruct Ea as [->|(k & ->)]; [symmetry in E1; apply app_eq_nil in E1 as (_ & ?); discriminate|].
    apply N'. rewrite E2. apply in_or_app. left.
    destruct (exists_last (l := x :: d)) as (d' & y & Ed); [discriminate|]. rewrite Ed in *.
    rewrite app_assoc in E1. apply app_inj_tail in E1 as (_ & <-). apply in_or_app. right. now left. }
  intros (t & E & N & H) (t' & E' & N' & H').
  destruct (Nat.le_ge_cases (length h') (length h)).
  - apply (A h h' t t'); auto. congruence.
  - symmetry. apply (A h' h t' t); auto. congruence.
Qed.
Lemma is_head_in xs h : is_head xs h -> In 10 xs -> h <> [].
Proof. intros (t & E & N & _) I ->. cbn in E. now subst. Qed.

Lemma line_writes_spec xss : forall s, good s -> st_out s = true -> st_last s <> LIn ->
  exists s1, line_writes s xss = Ok s1 /\
    (let q := if st_app s then length (st_data s) else Z.to_nat (st_pos s) in
     st_data s1 = overwrite (st_data s) q (concat xss) /\
     (forall h, In 10 (concat xss) -> is_head (concat xss) h -> st_disk s1 = overwrite (st_data s) q h) /\
     (~ In 10 (concat xss) -> st_disk s1 = st_disk s)).
Proof.
  induction xss as [|xs xss IH]; intros s G O L; cbn zeta.
  - exists s. cbn. repeat split; auto. contradiction.
  - cbn [line_writes concat]. destruct (line_write_spec s xs G O L) as (s1 & E & G1 & O1 & A1 & L1 & D & P & Z0 & K & K0). cbn zeta in *.
    rewrite E. cbn [bind]. destruct (IH s1 G1 O1 L1) as (s2 & E2 & D2 & K2 & K20). cbn zeta in *.
    exists s2. split; [exact E2|].
    set (q := if st_app s then length (st_data s) else Z.to_nat (st_pos s)) in *.
    assert (Q : forall ys, overwrite (st_data s1) (if st_app s1 then length (st_data s1) else Z.to_nat (st_pos s1)) ys
                = overwrite (st_data s) q (xs ++ ys)).
    { intro ys. destruct xs as [|x xs'] eqn:Ex.
      - rewrite (Z0 eq_refl). reflexivity.
      - rewrite <- Ex in *. replace (if st_app s1 then length (st_data s1) else Z.to_nat (st_pos s1)) with (q + length xs)%nat.
        + rewrite D. apply overwrite_app.
        + rewrite A1. destruct (st_app s) eqn:As.
          * rewrite D. unfold q. rewrite overwrite_end, app_length. reflexivity.
          * symmetry. apply P. rewrite Ex. discriminate. }
    repeat split.
    + rewrite D2. apply Q.
    + intros h I H. destruct (in_dec Z.eq_dec 10 (concat xss)) as [J|J].
      * pose (k := firstn (last_line (rev (concat xss))) (concat xss)).
        pose proof (last_line_spec (concat xss)) as Hk. fold k in Hk.
        rewrite (K2 k J Hk), Q. f_equal. apply (is_head_unique (xs ++ concat xss)); [|exact H].
        apply is_head_app_l; [exact Hk|]. now apply (is_head_in _ _ Hk).
      * assert (Ix : In 10 xs) by (apply in_app_or in I; tauto).
        rewrite (K20 J), (K Ix). f_equal. apply (is_head_unique (xs ++ concat xss)); [|exact H].
        apply is_head_app_r; [apply last_line_spec|exact J].
    + intro N. rewrite K20, K0; auto; intro; apply N; apply in_or_app; auto.
Qed.

(** The next line of the bytes [l], in a buffer with place for [n] bytes. *)
Definition next_line (n : nat) (l r l' : list Z) : Prop :=
  l = r ++ l' /\ (length r <= n)%nat /\
  (forall a b, r = a ++ 10 :: b -> b = []) /\
  (l' = [] \/ length r = n \/ exists a, r = a ++ [10]).
Lemma line_part_next n l : next_line n l (line_part n l) (skipn (length (line_part n l)) l).
Proof.
  repeat split.
  - rewrite (line_part_prefix n l) at 1. now rewrite firstn_skipn.
  - revert l. induction n; intros [|c l]; cbn; try lia. destruct (c =? 10); cbn; [lia|]. specialize (IHn l). lia.
  - revert n. induction l as [|c l IH]; intros [|n] a b E; cbn in E; try (destruct a; discriminate).
    destruct (Z.eqb_spec c 10).
    + destruct a as [|x a]; [now injection E as _ <-|]. injection E as _ E. destruct a; discriminate.
    + destruct a as [|x a]; [injection E as E _; congruence|]. injection E as _ E. now apply (IH n a b).
  - revert n. induction l as [|c l IH]; intros [|n]; cbn; auto.
    destruct (Z.eqb_spec c 10) as [->|]; cbn.
    + right. right. now exists [].
    + destruct (IH n) as [H|[H|(a & H)]]; [left; exact H|right; left; lia|]. right. right. exists (c :: a). now rewrite H.
Qed.
Lemma skipn_add (l : list Z) a b : skipn (a + b) l = skipn b (skipn a l).
Proof. revert l. induction a; intros [|x l]; cbn; try reflexivity; [now destruct b|apply IHa]. Qed.
Inductive lines : list nat -> list Z -> list (list Z) -> Prop :=
| lines_nil l : lines [] l []
| lines_cons n ns l r l' rs : next_line n l r l' -> lines ns l' rs -> lines (S n :: ns) l (r :: rs).
Lemma line_reads_spec ns : forall s, good s -> st_in s = true -> st_last s <> LOut -> ~ In 0 (st_data s) ->
  Forall (fun n => n <> O) ns ->
  exists s1 rs, line_reads s ns = Ok (s1, rs) /\ lines ns (skipn (Z.to_nat (st_pos s)) (st_data s)) rs.
Proof.
  induction ns as [|n ns IH]; intros s G I L N F.
  - exists s, []. split; [reflexivity|constructor].
  - inversion F as [|? ? F1 F2]; subst. destruct n as [|n]; [congruence|].
    destruct (line_read_spec s n G I L N) as (s1 & E & G1 & I1 & L1 & D1 & P1). cbn zeta in *.
    destruct (IH s1 G1 I1 L1 ltac:(congruence) F2) as (s2 & rs & E2 & H2).
    cbn [line_reads]. rewrite E. cbn [bind]. rewrite E2. cbn [bind].
    do 2 eexists. split; [reflexivity|]. econstructor; [apply line_part_next|].
    rewrite D1, P1 in H2. rewrite skipn_add in H2. exact H2.
Qed.
