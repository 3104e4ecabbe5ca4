(** C29: the binary format. *)
From Coq Require Import ZArith List Bool Lia.
From Verif Require Import BinaryModel BinaryProofs.
Import ListNotations.
Local Open Scope Z_scope.

(** A comparator of ordered containers that the theorems allow. *)
Definition asymmetric (lt : value -> value -> bool) : Prop := forall x y, lt x y = true -> lt y x = false.

(** The comparator of the examples: integers and pairs of integers. *)
Definition less (x y : value) : bool :=
  match x, y with
  | VInt a, VInt b => a <? b
  | VNode [VInt a; VInt b], VNode [VInt c; VInt d] => (a <? c) || ((a =? c) && (b <? d))
  | _, _ => false
  end.
Lemma less_asymmetric : asymmetric less.
Proof.
  intros x y.
  destruct x as [a| |[|[a| | |] [|[b| | |] [|]]]|], y as [c| |[|[c| | |] [|[d| | |] [|]]]|]; cbn; try easy.
  - rewrite Z.ltb_lt, Z.ltb_ge. lia.
  - rewrite orb_true_iff, andb_true_iff, orb_false_iff, andb_false_iff, !Z.ltb_lt, !Z.ltb_ge, Z.eqb_eq, Z.eqb_neq. lia.
Qed.

(** ** Reading back a written value into a default-constructed object *)
Theorem C29_round_trip : forall lt big t v rest,
  asymmetric lt -> has_ty lt t v ->
  get_value lt big t (default t) (put_value big t v ++ rest) = Some (v, rest).
Proof.
  intros lt big t v rest A H. rewrite (get_put lt A) by (auto using default_shaped).
  now rewrite merge_default.
Qed.
Print Assumptions C29_round_trip.

(** ... and into any object of the type when it contains no lists, sets or maps. *)
Theorem C29_overwrite : forall lt big t old v rest,
  asymmetric lt -> overwriting t -> has_ty lt t old -> has_ty lt t v ->
  get_value lt big t old (put_value big t v ++ rest) = Some (v, rest).
Proof.
  intros lt big t old v rest A O Ho Hv. apply has_ty_shaped in Ho. rewrite (get_put lt A) by auto.
  now rewrite merge_overwriting.
Qed.
Print Assumptions C29_overwrite.

(** Finding: lists, sets and maps keep their old elements. *)
Theorem C29_list_keeps_old : forall lt big t old l rest,
  asymmetric lt -> has_ty lt (TList t) (VNode l) ->
  get_value lt big (TList t) (VNode old) (put_value big (TList t) (VNode l) ++ rest) = Some (VNode (old ++ l), rest).
Proof. intros lt big t old l rest A H. now rewrite (get_put lt A). Qed.
Print Assumptions C29_list_keeps_old.

(** Sets and maps: the old elements stay; of the ones read those with new keys are added in order. *)
Definition transitive (lt : value -> value -> bool) : Prop := forall x y z, lt x y = true -> lt y z = true -> lt x z = true.
Section Keep.
  Context (lt : value -> value -> bool) (T : transitive lt).
  Let kless (p q : value * value) : bool := lt (fst p) (fst q).
  Lemma map_emplace_spec k v l : increasing kless l ->
    let r := map_emplace lt l k v in
    increasing kless r /\ incl l r /\ (forall p, In p r -> In p l \/ p = (k, v)) /\
    (In (k, v) r \/ exists p, In p l /\ lt (fst p) k = false /\ lt k (fst p) = false) /\
    (forall x, lt x k = true -> Forall (fun p => lt x (fst p) = true) l -> Forall (fun p => lt x (fst p) = true) r).
  Proof.
    unfold increasing. induction 1 as [|[y w] l F S IH]; cbn.
    - split; [repeat constructor|]. split; [intros ? []|]. split; [intros p [<-|[]]; now right|]. split; [left; now left|].
      intros x X _. now repeat constructor.
    - destruct (lt k y) eqn:E1.
      { split; [constructor; [|now constructor]|].
        - constructor; [exact E1|]. eapply Forall_impl; [|exact F]. unfold kless. cbn. intros p P. eapply T; eauto.
        - split; [intros p P; now right|]. split; [intros p [<-|P]; [now right|now left]|]. split; [left; now left|].
          intros x X G. constructor; auto. }
      destruct (lt y k) eqn:E2.
      + cbn zeta in IH. destruct IH as (I1 & I2 & I3 & I4 & I5). split; [constructor; [|exact I1]|].
        * apply I5; auto.
        * split; [intros p [<-|P]; [now left|right; now apply I2]|].
          split; [intros p [<-|P]; [left; now left|destruct (I3 p P); [left; now right|now right]]|].
          split; [destruct I4 as [I4|(p & P & Q)]; [left; now right|right; exists p; split; [now right|exact Q]]|].
          intros x X G. inversion G; subst. constructor; auto.
      + split; [now constructor|]. split; [intros p; auto|]. split; [intros p; now left|]. split; [|auto].
        right. exists (y, w). split; [now left|auto].
  Qed.
  Lemma map_merge_spec : forall l acc, increasing kless acc -> increasing kless l ->
    let r := fold_left (fun m p => map_emplace lt m (fst p) (snd p)) l acc in
    increasing kless r /\ incl acc r /\ (forall p, In p r -> In p acc \/ In p l) /\
    (forall p, In p l -> In p r \/ exists q, In q acc /\ lt (fst q) (fst p) = false /\ lt (fst p) (fst q) = false).
  Proof.
    induction l as [|[k v] l IH]; intros acc HA HL; cbn [fold_left].
    - split; [exact HA|]. split; [intros p; auto|]. split; [now left|intros p []].
    - inversion HL as [|? ? F S]; subst. cbn [fst snd].
      destruct (map_emplace_spec k v acc HA) as (I1 & I2 & I3 & I4 & _).
      destruct (IH (map_emplace lt acc k v) I1 S) as (J1 & J2 & J3 & J4). cbn zeta.
      set (r := fold_left _ l (map_emplace lt acc k v)) in *.
      split; [exact J1|]. split; [intros p P; apply J2, I2, P|].
      split; [intros p P; destruct (J3 p P) as [Q|Q]; [destruct (I3 p Q) as [Q'|Q']; [now left|right; left; now symmetry]|right; now right]|].
      intros p [<-|P].
      + destruct I4 as [I4|I4]; [left; now apply J2|now right].
      + destruct (J4 p P) as [Q|(q & Q & Q1 & Q2)]; [now left|]. right. exists q. split; [|auto].
        destruct (I3 q Q) as [Q'|Q']; [exact Q'|]. subst q. cbn in Q1. rewrite Forall_forall in F. specialize (F p P). unfold kless in F. cbn in F. congruence.
  Qed.
End Keep.
Theorem C29_map_keeps_old : forall lt big tk tv old l rest, asymmetric lt -> transitive lt ->
  has_ty lt (TMap tk tv) (VMap old) -> has_ty lt (TMap tk tv) (VMap l) ->
  exists r, get_value lt big (TMap tk tv) (VMap old) (put_value big (TMap tk tv) (VMap l) ++ rest) = Some (VMap r, rest) /\
    increasing (fun p q => lt (fst p) (fst q)) r /\ (forall p, In p old -> In p r) /\ (forall p, In p r -> In p old \/ In p l) /\
    (forall p, In p l -> In p r \/ exists q, In q old /\ lt (fst q) (fst p) = false /\ lt (fst p) (fst q) = false).
Proof.
  intros lt big tk tv old l rest A T (_ & _ & Ho) Hl. rewrite (get_put lt A) by easy. cbn [merge entries].
  eexists. split; [reflexivity|]. destruct Hl as (_ & _ & Hl). exact (map_merge_spec lt T l old Ho Hl).
Qed.
Print Assumptions C29_map_keeps_old.
Lemma set_as_map lt l : forall acc, map fst (fold_left (fun m p => map_emplace lt m (fst p) (snd p)) (map (fun x => (x, x)) l) (map (fun x => (x, x)) acc)) =
  fold_left (set_emplace lt) l acc /\
  fold_left (fun m p => map_emplace lt m (fst p) (snd p)) (map (fun x => (x, x)) l) (map (fun x => (x, x)) acc) = map (fun x => (x, x)) (fold_left (set_emplace lt) l acc).
Proof.
  assert (D : forall x acc, map_emplace lt (map (fun x => (x, x)) acc) x x = map (fun x => (x, x)) (set_emplace lt acc x)).
  { intros x acc. induction acc as [|y acc IH]; cbn; [reflexivity|]. destruct (lt x y); [reflexivity|]. destruct (lt y x); cbn; [now rewrite IH|reflexivity]. }
  induction l as [|x l IH]; intros acc; cbn.
  - split; [|reflexivity]. rewrite map_map. cbn. apply map_id.
  - rewrite D. apply IH.
Qed.
Lemma increasing_diag lt (l : list value) : increasing (fun p q => lt (fst p) (fst q)) (map (fun x => (x, x)) l) <-> increasing lt l.
Proof.
  unfold increasing. induction l as [|x l IH]; cbn; [split; constructor|].
  split; intros H; inversion H as [|? ? F S]; subst; constructor; try now apply IH.
  - rewrite Forall_map in F. exact F.
  - rewrite Forall_map. exact F.
Qed.
Theorem C29_set_keeps_old : forall lt big t old l rest, asymmetric lt -> transitive lt ->
  has_ty lt (TSet t) (VNode old) -> has_ty lt (TSet t) (VNode l) ->
  exists r, get_value lt big (TSet t) (VNode old) (put_value big (TSet t) (VNode l) ++ rest) = Some (VNode r, rest) /\
    increasing lt r /\ (forall x, In x old -> In x r) /\ (forall x, In x r -> In x old \/ In x l) /\
    (forall x, In x l -> In x r \/ exists y, In y old /\ lt y x = false /\ lt x y = false).
Proof.
  intros lt big t old l rest A T (_ & _ & Ho) Hl. rewrite (get_put lt A) by easy. cbn [merge nodes].
  eexists. split; [reflexivity|]. destruct Hl as (_ & _ & Hl). apply increasing_diag in Ho, Hl.
  pose proof (map_merge_spec lt T _ _ Ho Hl) as M. cbn zeta in M. rewrite (proj2 (set_as_map lt l old)) in M.
  set (r := fold_left (set_emplace lt) l old) in *. rewrite increasing_diag in M. destruct M as (M1 & M2 & M3 & M4).
  assert (I : forall x s, In (x, x) (map (fun x : value => (x, x)) s) <-> In x s).
  { intros x s. rewrite in_map_iff. split; [intros (y & E & Y); injection E as ->; exact Y|eauto]. }
  split; [exact M1|]. split; [intros x X; apply I, M2, I, X|]. split; [intros x X; rewrite <- (I x old), <- (I x l); now apply M3, I|].
  intros x X. apply I in X. destruct (M4 _ X) as [Q|(q & Q & Q1 & Q2)]; [left; now apply I|right]. apply in_map_iff in Q as (y & <- & Y). eauto.
Qed.
Print Assumptions C29_set_keeps_old.
Lemma less_transitive : transitive less.
Proof.
  intros x y z. destruct x as [a| |[|[a| | |] [|[b| | |] [|]]]|], y as [c| |[|[c| | |] [|[d| | |] [|]]]|], z as [e| |[|[e| | |] [|[f| | |] [|]]]|]; cbn; try easy.
  - rewrite !Z.ltb_lt. lia.
  - rewrite !orb_true_iff, !andb_true_iff, !Z.ltb_lt, !Z.eqb_eq. lia.
Qed.
Example C29_case_keeps_old :
  get_value less false (TMap (TInt 1 true) (TInt 1 true)) (VMap [(VInt 3, VInt 30); (VInt 5, VInt 50)])
    (put_value false (TMap (TInt 1 true) (TInt 1 true)) (VMap [(VInt 1, VInt 11); (VInt 3, VInt 33); (VInt 4, VInt 44)])) =
  Some (VMap [(VInt 1, VInt 11); (VInt 3, VInt 30); (VInt 4, VInt 44); (VInt 5, VInt 50)], []).
Proof. vm_compute. reflexivity. Qed.

Theorem C29_overwrite_any_refuted : exists lt big t old v,
  asymmetric lt /\ has_ty lt t old /\ has_ty lt t v
  /\ get_value lt big t old (put_value big t v) <> Some (v, []).
Proof.
  exists less, false, (TSet (TInt 4 true)), (VNode [VInt 7]), (VNode [VInt 1; VInt 9]).
  split; [apply less_asymmetric|].
  split; [cbn; repeat constructor; cbn; lia|].
  split; [cbn; repeat constructor; cbn; lia|].
  vm_compute. discriminate.
Qed.
Print Assumptions C29_overwrite_any_refuted.

(** A truncated encoding is reported as a failure, whatever object is read into. *)
Theorem C29_truncated : forall lt big t old v p q,
  asymmetric lt -> has_ty lt t old -> has_ty lt t v ->
  put_value big t v = p ++ q -> q <> [] ->
  get_value lt big t old p = None.
Proof.
  intros lt big t old v p q A Ho Hv E Q. apply has_ty_shaped in Ho.
  destruct (get_value lt big t old p) as [[w r]|] eqn:G; [|reflexivity].
  apply (get_ext _ _ _ _ _ _ _ q) in G. rewrite <- E in G.
  assert (K := get_put lt A big t old v [] Ho Hv). rewrite app_nil_r, G in K.
  assert (K2 : r ++ q = []) by congruence. now destruct (app_eq_nil _ _ K2).
Qed.
Print Assumptions C29_truncated.

(** Encodings delimit themselves: streams of values split in only one way. *)
Theorem C29_self_delimiting : forall lt big t v v' r r',
  asymmetric lt -> has_ty lt t v -> has_ty lt t v' ->
  put_value big t v ++ r = put_value big t v' ++ r' -> v = v' /\ r = r'.
Proof.
  intros lt big t v v' r r' A H H' E.
  assert (K := C29_round_trip lt big t v r A H). rewrite E, C29_round_trip in K by auto. now inversion K.
Qed.
Print Assumptions C29_self_delimiting.

(** For types without ordered containers every successful read reads an encoding:
    the value is of the type, and writing it gives the bytes consumed. *)
Theorem C29_canonical : forall lt big t s v rest,
  sequential t -> Forall is_byte s ->
  get_value lt big t (default t) s = Some (v, rest) ->
  has_ty lt t v /\ s = put_value big t v ++ rest.
Proof. intros lt big t s v rest H1 H2 H3. exact (get_canonical lt big t H1 s v rest H2 H3). Qed.
Print Assumptions C29_canonical.

(** The layout of an integer: byte [i] from the least significant end is the
    [i]-th base 256 digit of the two's complement. *)
Theorem C29_layout : forall n sg x i, (i < n)%nat ->
  length (put_value false (TInt n sg) (VInt x)) = n
  /\ nth i (put_value false (TInt n sg) (VInt x)) 0 = (x / 256 ^ Z.of_nat i) mod 256
  /\ put_value true (TInt n sg) (VInt x) = rev (put_value false (TInt n sg) (VInt x)).
Proof.
  intros n sg x i Hi. cbn. repeat split.
  - apply le_bytes_length.
  - revert x i Hi. induction n as [|n IH]; intros x [|i] Hi; try lia; cbn [le_bytes nth].
    + now rewrite Z.div_1_r.
    + rewrite IH by lia. f_equal. rewrite Z.div_div by (try lia; apply Z.pow_pos_nonneg; lia).
      f_equal. rewrite Nat2Z.inj_succ, Z.pow_succ_r by lia. reflexivity.
Qed.
Print Assumptions C29_layout.

(** A map from 16 bit integers to vectors of lists of pairs. *)
Definition case_ty : ty := TMap (TInt 2 true) (TVec (TTuple [TInt 1 false; TList (TBytes 2)])).
Definition case_value : value :=
  VMap [(VInt (-300), VNode []);
        (VInt 5, VNode [VNode [VInt 255; VNode [VBytes [1; 2]; VBytes [3; 4]]]; VNode [VInt 0; VNode []]])].
Example C29_case :
  has_ty less case_ty case_value
  /\ get_value less true case_ty (default case_ty) (put_value true case_ty case_value ++ [9; 9]) = Some (case_value, [9; 9])
  /\ get_value less true case_ty (default case_ty) (firstn 40 (put_value true case_ty case_value)) = None.
Proof.
  split; [|vm_compute; auto].
  cbn. unfold is_byte, increasing. repeat (constructor; cbn; try lia).
Qed.
Example C29_case_overwrite :
  let t := TTuple [TVec (TInt 2 true); TBytes 1] in
  overwriting t /\ has_ty less t (VNode [VNode [VInt 1; VInt 2; VInt 3]; VBytes [7]])
  /\ has_ty less t (VNode [VNode [VInt (-1)]; VBytes [8]])
  /\ get_value less false t (VNode [VNode [VInt 1; VInt 2; VInt 3]; VBytes [7]])
       (put_value false t (VNode [VNode [VInt (-1)]; VBytes [8]])) = Some (VNode [VNode [VInt (-1)]; VBytes [8]], []).
Proof. cbn. unfold is_byte. repeat split; try lia; repeat constructor; cbn; try lia. Qed.
Example C29_case_canonical :
  let t := TVec (TTuple [TInt 2 true; TInt 1 false]) in
  sequential t /\ get_value less false t (default t) [1; 0; 0; 0; 0; 0; 0; 0; 255; 255; 3; 44]
                  = Some (VNode [VNode [VInt (-1); VInt 3]], [44]).
Proof. split; [cbn; lia | vm_compute; reflexivity]. Qed.
