(** C105: arithmetic of iterators with offsets of any type; C106: linked lists. *)
From Coq Require Import ZArith List Bool Lia.
From Verif Require Import Outcome IntTypes IterModel IterProofs.
Import ListNotations.
Local Open Scope Z_scope.

(** * C105 *)
(** The iterator at the value [v] of the type [t] with the step [s]. *)
Definition iter_at (t : ity) (v s : Z) : niter := {| n_ty := t; n_val := v; n_step := s |}.
Definition offset (o : ity) (n : Z) : tval := {| tty := o; tz := n |}.
(** Numbers of a C++ type with 8 to 64 bits. *)
Definition number (t : ity) (z : Z) : Prop := 8 <= bits t <= 64 /\ in_ity t z.

(** Moving by an offset of type [o]: the iterator arrives at the number if the product
    of offset and step is a number of the promoted offset type, or if this is unsigned
    and not narrower than the value type (all is modulo the width then). *)
Theorem C105_plus : forall t o v s n,
  number t v -> number int32 s -> number o n -> number t (v + n * s) ->
  in_ity (promote o) (n * s) \/ sgn (promote o) = false /\ bits t <= bits (promote o) ->
  n_add (iter_at t v s) (offset o n) = Ok (iter_at t (v + n * s) s) /\ n_at (iter_at t v s) (offset o n) = Ok (v + n * s).
Proof.
  intros t o v s n (Ct & Iv) (_ & Is) (Co & In) (_ & Iw) H.
  assert (E : n_add (iter_at t v s) (offset o n) = Ok (iter_at t (v + n * s) s)) by (apply n_add_ok; auto).
  split; [exact E|]. unfold n_at. now rewrite E.
Qed.
Print Assumptions C105_plus.

Theorem C105_minus : forall t o v s n,
  number t v -> number int32 s -> number o n -> number t (v - n * s) ->
  in_ity (promote o) (- n) /\ in_ity (promote o) (- n * s) \/ sgn (promote o) = false /\ bits t <= bits (promote o) ->
  n_sub (iter_at t v s) (offset o n) = Ok (iter_at t (v - n * s) s).
Proof.
  intros t o v s n (Ct & Iv) (_ & Is) (Co & In) (_ & Iw) H. apply n_sub_ok; auto; unfold offset_fits; tauto.
Qed.
Print Assumptions C105_minus.

(** An unsigned offset narrower than the value type: subtraction goes forward. *)
Theorem C105_minus_unsigned_refuted : forall t w v n, 32 <= w < bits t -> bits t <= 64 ->
  in_ity t v -> 0 < n < 2 ^ w -> in_ity t (v - n) ->
  let o := {| bits := w; sgn := false |} in
  (in_ity t (v + 2 ^ w - n) -> n_sub (iter_at t v 1) (offset o n) = Ok (iter_at t (v + 2 ^ w - n) 1)) /\
  n_sub (iter_at t v 1) (offset o n) <> Ok (iter_at t (v - n) 1).
Proof.
  intros t w v n W B Iv Hn Ir o. assert (Po : promote o = o) by (apply promote_id; cbn; lia).
  assert (Co : ctype o) by (unfold ctype; cbn; lia). assert (Ct : ctype t) by (unfold ctype; lia).
  assert (In : in_ity o n) by (unfold in_ity, ilow, ihigh; cbn; lia).
  unfold n_sub, offset. rewrite tneg_ok; auto; rewrite Po; [|now right]. cbn [bind].
  assert (Em : wrap o (- n) = 2 ^ w - n).
  { unfold wrap, ilow. cbn [bits sgn o]. rewrite Z.sub_0_r, Z.add_0_r. symmetry. apply Z.mod_unique with (-1); lia. }
  rewrite Em. set (m := 2 ^ w - n) in *. assert (Im : in_ity o m) by (unfold in_ity, ilow, ihigh, m; cbn; lia).
  assert (S1 : in_ity int32 1) by (unfold in_ity; cbn; lia).
  split.
  - intros Iw. unfold iter_at. rewrite n_add_ok; auto.
    + do 2 f_equal. unfold m. lia.
    + replace (v + m * 1) with (v + 2 ^ w - n) by (unfold m; lia). exact Iw.
    + left. rewrite Po, Z.mul_1_r. exact Im.
  - unfold n_add, n_get, iter_at. cbn [n_step n_ty n_val].
    destruct (prod_ok o m 1 (m * 1) Co Im S1 eq_refl) as (p & E & Tp & Ip & E1 & _); [left; rewrite Po, Z.mul_1_r; exact Im|].
    rewrite E. cbn [bind]. rewrite Po, Z.mul_1_r in *. specialize (E1 Im). destruct p as [tp zp]. cbn in Tp, E1. subst tp zp.
    unfold tbin. cbn [tty tz]. rewrite Po. assert (Pt : promote t = t) by (apply promote_id; lia). rewrite Pt.
    assert (Cm : common t o = t). { unfold common. change (sgn o) with false. change (bits o) with w. destruct (sgn t); cbn [Bool.eqb]; [change (bits o) with w; destruct (Z.leb_spec (bits t) w); [lia | reflexivity] | destruct (Z.ltb_spec (bits t) w); [lia | reflexivity]]. }
    rewrite Cm. unfold tconv. cbn [tz].
    assert (T0 : 0 < bits t) by lia. assert (Imt : in_ity t m) by (apply (nonneg_in o); auto; cbn; try lia; unfold m; lia).
    rewrite !wrap_id by auto. unfold iarith. destruct (in_ityb t (v + m)) eqn:Eb.
    + apply in_ityb_spec in Eb. cbn [bind tz]. rewrite wrap_id by auto. unfold m. pose proof (Z.pow_pos_nonneg 2 w ltac:(lia) ltac:(lia)). intros HH. injection HH. lia.
    + destruct (sgn t) eqn:Sg; [discriminate|]. cbn [bind tz]. intros HH. injection HH as HH. rewrite wrap_wrap_congr in HH by lia.
      assert (Eq : wrap t (v + m) mod 2 ^ bits t = (v - n) mod 2 ^ bits t) by now rewrite HH. rewrite wrap_mod in Eq by lia.
      assert (Df : (v + m - (v - n)) mod 2 ^ bits t = 0) by (rewrite Zminus_mod, Eq, Z.sub_diag; apply Z.mod_0_l, Z.pow_nonzero; lia).
      replace (v + m - (v - n)) with (2 ^ w) in Df by (unfold m; lia).
      assert (2 ^ w < 2 ^ bits t) by (apply Z.pow_lt_mono_r; lia). pose proof (Z.pow_pos_nonneg 2 w ltac:(lia) ltac:(lia)). rewrite Z.mod_small in Df by lia. lia.
Qed.
Print Assumptions C105_minus_unsigned_refuted.

(** Increment and decrement are steps, and each undoes the other. *)
Theorem C105_step : forall t v s, number t v -> number int32 s -> number int32 (- s) ->
  (number t (v + s) -> n_next (iter_at t v s) = Ok (iter_at t (v + s) s) /\ n_prev (iter_at t (v + s) s) = Ok (iter_at t v s)) /\
  (number t (v - s) -> n_prev (iter_at t v s) = Ok (iter_at t (v - s) s) /\ n_next (iter_at t (v - s) s) = Ok (iter_at t v s)).
Proof.
  assert (N : forall t v s, number t v -> number int32 s -> number t (v + s) -> n_next (iter_at t v s) = Ok (iter_at t (v + s) s)).
  { intros t v s (Ct & Iv) (C32 & Is) (_ & Iw). unfold n_next, tint, iter_at. rewrite n_add_ok; auto; rewrite ?Z.mul_1_l; auto.
    - unfold in_ity; cbn; lia.
    - left. exact Is. }
  assert (P : forall t v s, number t v -> number int32 s -> number int32 (- s) -> number t (v - s) -> n_prev (iter_at t v s) = Ok (iter_at t (v - s) s)).
  { intros t v s (Ct & Iv) (C32 & Is) (_ & Im) (_ & Iw). unfold n_prev, tint, iter_at. 
    replace (v - s) with (v + -1 * s) in * by lia. replace (- s) with (-1 * s) in Im by lia.
    apply n_add_ok; auto; [unfold in_ity; cbn; lia | now left]. }
  intros t v s V S M. split; intros W; split; auto.
  - rewrite P; auto; replace (v + s - s) with v by lia; auto.
  - rewrite N; auto; replace (v - s + s) with v by lia; auto.
Qed.
Print Assumptions C105_step.

(** With a step of zero the iterator does not move, and differences and order of any two iterators are
    undefined: a division by zero, or an overflow before it. *)
Theorem C105_zero_step_refuted : forall t v w o n, number t v -> number o n ->
  n_add (iter_at t v 0) (offset o n) = Ok (iter_at t v 0) /\
  n_diff (iter_at t v 0) (iter_at t w 0) = UB /\ n_cmp (iter_at t v 0) (iter_at t w 0) = UB /\
  r_size (iter_at t v 0) (iter_at t w 0) = UB.
Proof.
  assert (W0 : forall t, 0 < bits t -> wrap t 0 = 0).
  { intros t H. apply wrap_id; [exact H|]. pose proof (Z.pow_pos_nonneg 2 (bits t - 1) ltac:(lia) ltac:(lia)).
    pose proof (Z.pow_pos_nonneg 2 (bits t) ltac:(lia) ltac:(lia)). unfold in_ity, ilow, ihigh. destruct (sgn t); lia. }
  assert (Cb : forall a b, 0 < bits a -> 0 < bits b -> 0 < bits (common a b)).
  { intros a b A B. unfold common. repeat match goal with |- context [if ?c then _ else _] => destruct c end; assumption. }
  assert (Pb : forall t, 0 < bits t -> 0 < bits (promote t)).
  { intros t H. unfold promote. repeat match goal with |- context [if ?c then _ else _] => destruct c end; cbn; lia. }
  assert (D : forall t v w, 0 < bits t -> n_diff (iter_at t v 0) (iter_at t w 0) = UB).
  { intros t v w H. unfold n_diff, iter_at. cbn [n_step n_get n_ty n_val]. change (0 =? 0) with true. cbn [assert_then].
    unfold tbin at 1. unfold iarith. destruct (in_ityb _ _); [|destruct (sgn _); [reflexivity|]]; cbn [bind];
      unfold tdiv at 1, tconv; cbn [tty tz tint n_get]; (rewrite W0 by (apply Cb; apply Pb; [apply Cb; apply Pb; exact H | cbn; lia])); reflexivity. }
  intros t v w o n (Ct & Iv) (Co & In). split; [|unfold n_cmp, r_size; rewrite !D by lia; auto].
  assert (In0 : forall t, 0 < bits t -> in_ity t 0).
  { intros u H. pose proof (Z.pow_pos_nonneg 2 (bits u - 1) ltac:(lia) ltac:(lia)).
    pose proof (Z.pow_pos_nonneg 2 (bits u) ltac:(lia) ltac:(lia)). unfold in_ity, ilow, ihigh. destruct (sgn u); lia. }
  unfold iter_at, offset. rewrite n_add_ok; rewrite ?Z.mul_0_r, ?Z.add_0_r; auto.
  - apply In0. cbn. lia.
  - left. apply In0, Pb. lia.
Qed.
Print Assumptions C105_zero_step_refuted.

(** Differences, equality and order in a value type that is signed or narrower than int:
    the iterators m and n steps from v. *)
Theorem C105_order : forall t v s m n,
  sgn (promote t) = true -> number int32 s -> s <> 0 -> number t (v + m * s) -> number t (v + n * s) ->
  in_ity (promote t) ((m - n) * s) -> in_ity (promote t) (m - n) ->
  let l := iter_at t (v + m * s) s in let r := iter_at t (v + n * s) s in
  (exists d, n_diff l r = Ok d /\ tz d = m - n) /\ n_cmp l r = Ok (Z.compare m n) /\ (n_eq l r = true <-> m = n).
Proof.
  intros t v s m n Sg (_ & Is) S0 (Ct & Im) (_ & In) Id Iq l r.
  pose proof (n_diff_ok t v s m n Ct Sg Is S0 Im In Id Iq) as D. split; [eexists; split; [exact D | reflexivity]|]. split.
  - unfold n_cmp. unfold l, r, iter_at. rewrite D. cbn [bind tz]. f_equal. destruct (Z.compare_spec m n); destruct (Z.compare_spec (m - n) 0); auto; lia.
  - unfold n_eq, l, r. cbn. rewrite Z.eqb_eq. split; [|now intros ->]. intros H. assert (m * s = n * s) by lia. now apply Z.mul_cancel_r in H0.
Qed.
Print Assumptions C105_order.

(** In an unsigned type of at least the width of int no iterator is less than another. *)
Theorem C105_order_unsigned_refuted : forall t v w, 32 <= bits t <= 64 -> sgn t = false -> in_ity t v -> in_ity t w -> v <> w ->
  n_cmp (iter_at t v 1) (iter_at t w 1) = Ok Gt.
Proof.
  intros t v w B Sg Iv Iw N. unfold n_cmp, iter_at. rewrite n_diff_unsigned by auto. cbn [bind tz]. f_equal.
  assert (T0 : 0 < bits t) by lia. pose proof (wrap_in t (v - w) T0) as I. pose proof (wrap_mod t (v - w) T0) as E.
  unfold in_ity, ilow, ihigh in *. rewrite Sg in *. destruct (Z.compare_spec (wrap t (v - w)) 0) as [H | H | H]; [|lia | reflexivity]. exfalso.
  rewrite H, Z.mod_0_l in E by (apply Z.pow_nonzero; lia). symmetry in E. apply Z.mod_divide in E; [|apply Z.pow_nonzero; lia]. destruct E as (q & E).
  assert (q = 0) by nia. subst q. lia.
Qed.
Print Assumptions C105_order_unsigned_refuted.

(** Elements of a range of [k] steps by index of any type. *)
Theorem C105_index : forall t v s k o i,
  sgn (promote t) = true -> number int32 s -> number int32 (- s) -> s <> 0 -> 0 <= k ->
  number t v -> number t (v + k * s) -> in_ity (promote t) (k * s) -> in_ity (promote t) k -> number o i ->
  let b := iter_at t v s in let e := iter_at t (v + k * s) s in
  (0 <= i < k -> in_ity (promote o) (i * s) -> r_at b e (offset o i) = Ok (v + i * s)) /\
  (~ 0 <= i < k -> r_at b e (offset o i) = AssertFail) /\
  (r_empty b e = true <-> k = 0) /\
  (0 < k -> r_front b e = Ok v /\ r_back b e = Ok (v + (k - 1) * s)) /\
  (k = 0 -> r_front b e = AssertFail /\ r_back b e = AssertFail).
Proof.
  intros t v s k o i Sg Hs Hm S0 K0 (Ct & Iv) (_ & Ik) Iks Ikk (Co & Ii) b e. pose proof (proj2 Hs) as Is.
  destruct (r_at_ok t v s k o i Ct Sg Is S0 K0 Iv Ik Iks Ikk Co Ii) as (A & B).
  assert (E : r_empty b e = true <-> k = 0).
  { unfold r_empty, n_eq, b, e. cbn. rewrite Z.eqb_eq. split; [nia | intros ->; lia]. }
  split; [intros Hi Hf; apply A; auto; now left|]. split; [exact B|]. split; [exact E|]. split.
  - intros Kp. unfold r_front, r_back. destruct (r_empty b e) eqn:R; [rewrite (proj1 E eq_refl) in Kp; lia|]. cbn [negb assert_then]. split; [reflexivity|].
    assert (Ip : in_ity t (v + k * s - s)) by (unfold in_ity in *; destruct (Z.lt_ge_cases 0 s); nia).
    destruct (C105_step t (v + k * s) s (conj Ct Ik) Hs Hm) as (_ & St). destruct (St (conj Ct Ip)) as (P & _). unfold e. rewrite P. cbn. f_equal. lia.
  - intros K. unfold r_front, r_back. rewrite (proj2 E K). split; reflexivity.
Qed.
Print Assumptions C105_index.

(** An int index overflows in the product with the step although the element exists. *)
Theorem C105_index_refuted :
  let b := iter_at int64 0 1000000 in let e := iter_at int64 (10 ^ 12) 1000000 in
  r_at b e (offset int32 3000) = UB /\ r_at b e (offset int64 3000) = Ok 3000000000.
Proof. split; vm_compute; reflexivity. Qed.
Print Assumptions C105_index_refuted.

Example C105_case :
  n_add (iter_at int64 5 (-3)) (offset uint8 200) = Ok (iter_at int64 (-595) (-3)) /\
  n_sub (iter_at int8 100 1) (offset uint32 120) = Ok (iter_at int8 (-20) 1) /\
  n_sub (iter_at int64 5 1) (offset uint32 1) = Ok (iter_at int64 4294967300 1) /\
  n_sub (iter_at int64 5 1) (offset uint64 7) = Ok (iter_at int64 (-2) 1) /\
  n_cmp (iter_at int32 1 (-2)) (iter_at int32 7 (-2)) = Ok Gt /\
  n_cmp (iter_at uint8 1 1) (iter_at uint8 7 1) = Ok Lt /\
  n_cmp (iter_at uint32 1 1) (iter_at uint32 7 1) = Ok Gt /\
  r_at (iter_at int32 10 (-2)) (iter_at int32 0 (-2)) (offset uint64 4) = Ok 2 /\
  r_at (iter_at int32 10 (-2)) (iter_at int32 0 (-2)) (offset int8 (-1)) = AssertFail.
Proof. repeat split; vm_compute; reflexivity. Qed.
Example C105_case_hypotheses : number int64 5 /\ number int32 (-3) /\ number uint8 200 /\ number int64 (5 + 200 * -3) /\ in_ity (promote uint8) (200 * -3).
Proof. unfold number, in_ity; cbn; lia. Qed.

(** * C106 *)
(** [chain h first cells last]: the nodes from first to last by next, addresses and values. *)
Theorem C106_walk : forall (V : Type) (h : heap (V := V)) first cells last fuel,
  chain h first cells last -> (forall a, last = Some a -> ~ In a (map fst cells)) -> (length cells <= fuel)%nat ->
  l_walk h fuel first last = Ok (map snd cells).
Proof. intros. now apply chain_walk. Qed.
Print Assumptions C106_walk.

(** Doubly linked: decrement undoes increment between two nodes of the list. *)
Theorem C106_back : forall (V : Type) (h : heap (V := V)) a da b db,
  h a = Some da -> d_next da = Some b -> h b = Some db -> d_prev db = Some a ->
  (do j <- l_next h (Some a); l_prev h j) = Ok (Some a) /\ (do j <- l_prev h (Some b); l_next h j) = Ok (Some b).
Proof.
  intros V h a da b db Ha Na Hb Pb. cbn [l_next l_prev]. rewrite Ha, Hb. cbn [bind]. rewrite Na, Pb. cbn [l_next l_prev]. rewrite Ha, Hb. now rewrite Na, Pb.
Qed.
Print Assumptions C106_back.

(** The end of a list that ends in null cannot be decremented, so the list has no last
    element to an algorithm that goes backwards. *)
Theorem C106_end_refuted : forall (V : Type) (h : heap (V := V)) first cells a v, chain h first (cells ++ [(a, v)]) None ->
  l_next h (Some a) = Ok None /\ (do j <- l_next h (Some a); l_prev h j) = AssertFail.
Proof.
  intros V h first cells a v. revert first. induction cells as [|(c, w) cells IH]; intros first C.
  - destruct C as (_ & d & Hd & _ & E). cbn in E |- *. rewrite Hd. cbn. now rewrite E.
  - destruct C as (_ & d & _ & _ & C). now apply (IH (d_next d)).
Qed.
Print Assumptions C106_end_refuted.

(** What is past the end is neither read nor left. *)
Theorem C106_past_end : forall (V : Type) (h : heap (V := V)) first cells a v, chain h first (cells ++ [(a, v)]) None ->
  (do j <- l_next h (Some a); l_next h j) = AssertFail /\ (do j <- l_next h (Some a); l_get h j) = AssertFail.
Proof.
  intros V h first cells a v C. destruct (C106_end_refuted V h first cells a v C) as [-> _]. split; reflexivity.
Qed.
Print Assumptions C106_past_end.

Definition sample_heap (a : nat) : option node :=
  match a with
  | 3 => Some {| d_value := 10%Z; d_next := Some 7; d_prev := None |}
  | 7 => Some {| d_value := 20%Z; d_next := Some 5; d_prev := Some 3 |}
  | 5 => Some {| d_value := 30%Z; d_next := None; d_prev := Some 7 |}
  | _ => None
  end%nat.
Example C106_case_past_end : (do j <- l_next sample_heap (Some 5%nat); l_next sample_heap j) = AssertFail.
Proof. reflexivity. Qed.
Example C106_case : chain sample_heap (Some 3%nat) [(3%nat, 10); (7%nat, 20); (5%nat, 30)] None /\
  l_walk sample_heap 3 (Some 3%nat) None = Ok [10; 20; 30] /\ l_walk sample_heap 5 (Some 3%nat) (Some 5%nat) = Ok [10; 20].
Proof. split; [cbn; repeat (split; [reflexivity|]; eexists; split; [reflexivity|]; split; [reflexivity|]); reflexivity | split; reflexivity]. Qed.
