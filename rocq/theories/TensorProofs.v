(** Proofs about tensor initialisation from nested lists (C36). *)
From Coq Require Import List Bool PeanoNat Lia Arith.
From Verif Require Import Outcome ListLemmas ContainerModel.
Import ListNotations.

(** Reference. *)
Fixpoint nprod (ds : list nat) : nat := match ds with [] => 1 | d :: ds => d * nprod ds end.
Fixpoint row_major_n (ds is : list nat) : nat :=
  match ds, is with
  | d :: ds, i :: is => i * nprod ds + row_major_n ds is
  | _, _ => 0
  end.
Definition in_shape_n (ds is : list nat) : Prop := Forall2 (fun d i => i < d) ds is.
(** Element of a nested list at a multi-index. *)
Fixpoint nd_get {T} (n : nat) : ndl T n -> list nat -> option T :=
  match n with
  | O => fun x is => match is with [] => Some x | _ => None end
  | S m => fun il is =>
      match is with
      | [] => None
      | i :: is => match nth_error il i with Some x => nd_get m x is | None => None end
      end
  end.
Lemma nd_get_some {T} m (il : ndl T (S m)) i x is :
  nth_error (il : list (ndl T m)) i = Some x -> nd_get (S m) il (i :: is) = nd_get m x is.
Proof. intro H. change (nd_get (S m) il (i :: is)) with (match nth_error (il : list (ndl T m)) i with Some x => nd_get m x is | None => None end).
  now rewrite H. Qed.
Lemma nd_get_none {T} m (il : ndl T (S m)) i is :
  length (il : list (ndl T m)) <= i -> nd_get (S m) il (i :: is) = None.
Proof. intro H. change (nd_get (S m) il (i :: is)) with (match nth_error (il : list (ndl T m)) i with Some x => nd_get m x is | None => None end).
  apply nth_error_None in H. now rewrite H. Qed.
(** All the nested lists are at most as long as the dimensions. *)
Fixpoint fits {T} (n : nat) : ndl T n -> list nat -> Prop :=
  match n with
  | O => fun _ ds => ds = []
  | S m => fun il ds =>
      match ds with
      | [] => False
      | d :: ds => length il <= d /\ Forall (fun x => fits m x ds) il /\ length ds = m
      end
  end.
(** All the nested lists are exactly as long as the dimensions. *)
Fixpoint full {T} (n : nat) : ndl T n -> list nat -> Prop :=
  match n with
  | O => fun _ ds => ds = []
  | S m => fun il ds =>
      match ds with
      | [] => False
      | d :: ds => length il = d /\ Forall (fun x => full m x ds) il /\ length ds = m
      end
  end.
(** Row-major strides. *)
Fixpoint pstrides (ds : list nat) : list nat :=
  match ds with
  | [] => []
  | _ :: ds => match ds with [] => [] | _ => nprod ds :: pstrides ds end
  end.
(** All the dimensions but the last coincide (always for rank at most 2). *)
Definition leading_equal (ds : list nat) : Prop :=
  forall j, S j < length ds - 1 -> nth j ds 0 = nth (S j) ds 0.

Lemma fold_mul_nprod ds : forall r, fold_left Nat.mul ds r = r * nprod ds.
Proof. induction ds as [|d ds IH]; intro r; cbn [fold_left nprod]; [lia|]. rewrite IH. lia. Qed.

Lemma row_major_n_bound ds is : in_shape_n ds is -> row_major_n ds is < nprod ds.
Proof.
  induction 1 as [|d i ds is Hi F IH]; cbn [nprod row_major_n]; [lia|]. nia.
Qed.

Lemma row_major_n_surj ds : forall p, p < nprod ds -> exists is, in_shape_n ds is /\ row_major_n ds is = p.
Proof.
  induction ds as [|d ds IH]; intros p H; cbn [nprod] in H.
  - exists []. split; [constructor|]. simpl. lia.
  - assert (P : nprod ds <> 0) by nia.
    destruct (IH (p mod nprod ds)) as (is & S & R); [now apply Nat.mod_upper_bound|].
    exists (p / nprod ds :: is). split.
    + constructor; [|assumption]. apply Nat.div_lt_upper_bound; lia.
    + cbn [row_major_n]. rewrite R. pose proof (Nat.div_mod p (nprod ds) P). lia.
Qed.

(** ** strides *)
Lemma pstrides_length ds : length (pstrides ds) = length ds - 1.
Proof.
  induction ds as [|d ds IH]; [reflexivity|]. cbn [pstrides]. destruct ds; [reflexivity|].
  cbn [length] in *. lia.
Qed.
Lemma pstrides_nth ds : forall j, j < length ds - 1 -> nth j (pstrides ds) 0 = nprod (skipn (S j) ds).
Proof.
  induction ds as [|d ds IH]; intros j H; [simpl in H; lia|]. cbn [pstrides].
  destruct ds as [|d' ds]; [simpl in H; lia|]. destruct j; [reflexivity|].
  cbn [nth]. rewrite IH by (cbn [length] in *; lia). reflexivity.
Qed.

Lemma nth_list_set_same {A} (l : list A) i x d : i < length l -> nth i (list_set l i x) d = x.
Proof. intro H. apply nth_error_nth. now apply list_set_same. Qed.
Lemma nth_list_set_other {A} (l : list A) i j x d : i <> j -> nth j (list_set l i x) d = nth j l d.
Proof.
  intro H. pose proof (list_set_other l i j x H) as E.
  destruct (nth_error l j) as [y|] eqn:F.
  - rewrite (nth_error_nth _ _ d F). now apply nth_error_nth.
  - rewrite !nth_overflow; [reflexivity| |]; [|rewrite list_set_length]; now apply nth_error_None.
Qed.

(** The code's strides: strides[N-2] = dims[N-1], strides[j] = strides[j+1] * dims[j]. *)
Lemma strides_loop_length dims : forall i s, length (strides_loop dims i s) = length s.
Proof. induction i; intro s; cbn [strides_loop]; [reflexivity|]. now rewrite IHi, list_set_length. Qed.

Lemma strides_loop_spec dims : forall i s, i < length s ->
  (forall j, i <= j -> nth j (strides_loop dims i s) 0 = nth j s 0)
  /\ (forall j, j < i -> nth j (strides_loop dims i s) 0 = nth (S j) (strides_loop dims i s) 0 * nth j dims 0).
Proof.
  induction i as [|i IH]; intros s H; [split; [reflexivity|intros; lia]|].
  cbn [strides_loop].
  destruct (IH (list_set s i (nth (S i) s 0 * nth i dims 0))) as [A B]; [rewrite list_set_length; lia|].
  split.
  - intros j Hj. rewrite A by lia. apply nth_list_set_other. lia.
  - intros j Hj. destruct (Nat.eq_dec j i) as [->|N]; [|apply B; lia].
    rewrite !A by lia. rewrite nth_list_set_same by lia. rewrite nth_list_set_other by lia. reflexivity.
Qed.

Lemma strides_spec ds : 2 <= length ds ->
  length (strides ds) = length ds - 1
  /\ nth (length ds - 2) (strides ds) 0 = nth (length ds - 1) ds 0
  /\ (forall j, j < length ds - 2 -> nth j (strides ds) 0 = nth (S j) (strides ds) 0 * nth j ds 0).
Proof.
  intro H. unfold strides. rewrite (proj2 (Nat.leb_le _ _) H).
  set (s := list_set (repeat 0 (length ds - 1)) (length ds - 2) (nth (length ds - 1) ds 0)).
  assert (L : length s = length ds - 1) by (unfold s; rewrite list_set_length; apply repeat_length).
  split; [now rewrite strides_loop_length|].
  destruct (strides_loop_spec ds (length ds - 2) s ltac:(lia)) as [A B]. split; [|exact B].
  rewrite A by lia. unfold s. apply nth_list_set_same. rewrite repeat_length. lia.
Qed.

Lemma nprod_skipn ds j : j < length ds -> nprod (skipn j ds) = nth j ds 0 * nprod (skipn (S j) ds).
Proof.
  intro H. destruct (nth_error ds j) as [d|] eqn:E; [|apply nth_error_None in E; lia].
  rewrite (skipn_cons_nth ds j d E). cbn [nprod]. now rewrite (nth_error_nth ds j 0 E).
Qed.

Lemma strides_proper ds : 2 <= length ds -> leading_equal ds -> strides ds = pstrides ds.
Proof.
  intros H E. destruct (strides_spec ds H) as (L & S1 & S2).
  assert (G : forall k j, j + k = length ds - 2 -> nth j (strides ds) 0 = nprod (skipn (S j) ds)).
  { induction k as [|k IH]; intros j Hj.
    - replace j with (length ds - 2) by lia. rewrite S1. rewrite nprod_skipn by lia.
      rewrite (skipn_all2 (n := S (S (length ds - 2)))) by lia. cbn [nprod].
      replace (S (length ds - 2)) with (length ds - 1) by lia. lia.
    - rewrite S2 by lia. rewrite (IH (S j)) by lia. rewrite (nprod_skipn ds (S j)) by lia.
      rewrite <- (E j) by lia. lia. }
  apply nth_ext with 0 0; [now rewrite pstrides_length|].
  intros j Hj. rewrite pstrides_nth by lia. apply (G (length ds - 2 - j)). lia.
Qed.

(** ** Memory *)
Section Mem.
  Context {T : Type}.
  Variable dflt : T.
  Notation mem := (@tmem T).

  Lemma put_all_ok (m : mem) p xs : p + length xs <= length m ->
    exists m', put_all m p xs = Ok (p + length xs, m') /\ length m' = length m
    /\ (forall q, q < p \/ p + length xs <= q -> nth_error m' q = nth_error m q)
    /\ (forall i, i < length xs -> nth_error m' (p + i) = option_map Some (nth_error xs i)).
  Proof.
    intro H. unfold put_all. rewrite (proj2 (Nat.leb_le _ _) H). eexists. split; [reflexivity|].
    assert (Lp : length (firstn p m) = p) by (rewrite firstn_length; lia).
    split; [|split].
    - rewrite !app_length, map_length, skipn_length. lia.
    - intros q [Hq|Hq].
      + rewrite nth_error_app1 by lia. apply nth_error_firstn_lt. lia.
      + rewrite nth_error_app2 by lia. rewrite nth_error_app2 by (rewrite map_length; lia).
        rewrite nth_error_skipn_add. f_equal. rewrite map_length. lia.
    - intros i Hi. rewrite nth_error_app2 by lia. rewrite nth_error_app1 by (rewrite map_length; lia).
      rewrite nth_error_map. f_equal. f_equal. lia.
  Qed.

  Lemma fill_mem_ok (m : mem) p q : p <= q <= length m ->
    exists m', fill dflt m p q = Ok m' /\ length m' = length m
    /\ (forall r, r < p \/ q <= r -> nth_error m' r = nth_error m r)
    /\ (forall r, p <= r < q -> nth_error m' r = Some (Some dflt)).
  Proof.
    intro H. unfold fill. rewrite (proj2 (Nat.leb_le p q)) by lia.
    destruct (put_all_ok m p (repeat dflt (q - p))) as (m' & E & L & O & I); [rewrite repeat_length; lia|].
    rewrite repeat_length in *. rewrite E. cbn [omap bind snd]. exists m'.
    split; [reflexivity|]. split; [assumption|]. split.
    - intros r Hr. apply O. lia.
    - intros r Hr. replace r with (p + (r - p)) by lia. rewrite I by lia.
      rewrite nth_error_repeat by lia. reflexivity.
  Qed.

  Lemma fill_length (m m' : mem) p q : fill dflt m p q = Ok m' -> length m' = length m /\ p <= q <= length m.
  Proof.
    unfold fill. destruct (Nat.leb_spec p q) as [L|L]; [|discriminate]. unfold put_all.
    rewrite repeat_length. destruct (Nat.leb_spec (p + (q - p)) (length m)) as [L2|L2]; [|discriminate].
    cbn [omap bind snd]. intro E. injection E as <-. split; [|lia].
    rewrite !app_length, map_length, firstn_length, skipn_length, repeat_length. lia.
  Qed.

  Lemma put_all_length (m m' : mem) p xs e : put_all m p xs = Ok (e, m') ->
    length m' = length m /\ e = p + length xs /\ e <= length m.
  Proof.
    unfold put_all. destruct (Nat.leb_spec (p + length xs) (length m)) as [L|L]; [|discriminate].
    intro E. injection E as <- <-. split; [|lia].
    rewrite !app_length, map_length, firstn_length, skipn_length. lia.
  Qed.

  (** What [initialize] guarantees for a nested list that fits, given the
      row-major strides. *)
  Definition value_at (n : nat) (il : ndl T n) (is : list nat) : T :=
    match nd_get n il is with Some x => x | None => dflt end.
  Definition init_spec (n : nat) (il : ndl T n) (ds : list nat) (p : nat) (m : mem) (r : outcome (nat * mem)) : Prop :=
    exists e m', r = Ok (e, m') /\ p <= e <= p + nprod ds /\ length m' = length m
    /\ (forall q, q < p \/ e <= q -> nth_error m' q = nth_error m q)
    /\ (forall is, in_shape_n ds is ->
          let q := p + row_major_n ds is in
          if q <? e then nth_error m' q = Some (Some (value_at n il is)) else nd_get n il is = None).

  (** Loop over the sub-lists, [w] = size of a sub-tensor. *)
  Lemma init_loop_ok n (rec : ndl T n -> nat -> mem -> outcome (nat * mem)) ds (il : list (ndl T n)) :
    forall p m,
    p + length il * nprod ds <= length m ->
    Forall (fun x => forall p m, p + nprod ds <= length m -> init_spec n x ds p m (rec x p m)) il ->
    exists m', init_loop dflt rec (nprod ds) il p m = Ok (p + length il * nprod ds, m')
    /\ length m' = length m
    /\ (forall q, q < p \/ p + length il * nprod ds <= q -> nth_error m' q = nth_error m q)
    /\ (forall i x is, nth_error il i = Some x -> in_shape_n ds is ->
          nth_error m' (p + i * nprod ds + row_major_n ds is) = Some (Some (value_at n x is))).
  Proof.
    induction il as [|x il IH]; intros p m B F.
    - exists m. cbn [init_loop length]. rewrite Nat.mul_0_l, Nat.add_0_r.
      repeat split. intros [|i] x is E; discriminate.
    - inversion F as [|? ? Hx F']; subst. cbn [length] in B.
      destruct (Hx p m ltac:(lia)) as (e & m1 & R & Be & L1 & O1 & V1).
      cbn [init_loop]. rewrite R. cbn [bind]. cbv zeta.
      rewrite (proj2 (Nat.leb_le _ _)) by lia.
      destruct (fill_mem_ok m1 e (p + nprod ds)) as (m2 & E2 & L2 & O2 & V2); [lia|].
      rewrite E2. cbn [bind].
      destruct (IH (p + nprod ds) m2) as (m3 & E3 & L3 & O3 & V3); [lia|assumption|].
      exists m3. split; [rewrite E3; f_equal; f_equal; cbn [length]; lia|].
      split; [lia|]. split.
      + intros q Hq. cbn [length] in Hq. rewrite O3 by lia. rewrite O2 by lia. apply O1. lia.
      + intros [|i] y is Hy Hs; cbn [nth_error] in Hy.
        * injection Hy as <-. pose proof (row_major_n_bound ds is Hs) as Bi.
          rewrite Nat.mul_0_l, Nat.add_0_r. rewrite O3 by lia.
          specialize (V1 is Hs). cbv zeta in V1.
          destruct (Nat.ltb_spec (p + row_major_n ds is) e) as [Q|Q].
          -- rewrite O2 by lia. exact V1.
          -- unfold value_at. rewrite V1. apply V2. lia.
        * rewrite <- (V3 i y is Hy Hs). f_equal. lia.
  Qed.

  Lemma initialize_SS n (il : ndl T (S (S n))) ds ss p m :
    initialize dflt (S (S n)) il ds ss p m
    = assert_then (length il <=? hd 0 ds)
        (init_loop dflt (fun x => initialize dflt (S n) x (tl ds) (tl ss)) (hd 0 ss) il p m).
  Proof. reflexivity. Qed.
  Lemma initialize_1 (il : ndl T 1) ds ss p m :
    initialize dflt 1 il ds ss p m = assert_then (length il <=? hd 0 ds) (put_all m p il).
  Proof. reflexivity. Qed.

  Lemma initialize_ok : forall n (il : ndl T (S n)) ds ss p m,
    fits (S n) il ds -> (n = 0 \/ ss = pstrides ds) -> p + nprod ds <= length m ->
    init_spec (S n) il ds p m (initialize dflt (S n) il ds ss p m).
  Proof.
    induction n as [|n IH]; intros il ds ss p m F St B.
    - destruct ds as [|d ds]; [destruct F|]. destruct F as (Ll & F & Ld).
      destruct ds; [|discriminate]. cbn [nprod] in B.
      rewrite initialize_1. cbn [hd]. rewrite (proj2 (Nat.leb_le _ _) Ll). cbn [assert_then].
      destruct (put_all_ok m p il ltac:(lia)) as (m' & E & L & O & V).
      exists (p + length il), m'. split; [exact E|]. cbn [nprod]. split; [lia|]. split; [assumption|]. split; [exact O|].
      intros is Hs. inversion Hs as [|? i ? is' Hi Hs']; subst. inversion Hs'; subst. cbv zeta.
      cbn [row_major_n nprod]. rewrite Nat.mul_1_r, Nat.add_0_r.
      destruct (Nat.ltb_spec (p + i) (p + length il)) as [Q|Q].
      + rewrite V by lia. unfold value_at. cbn [nd_get].
        destruct (nth_error il i) eqn:Ei; [reflexivity|]. apply nth_error_None in Ei. lia.
      + cbn [nd_get]. rewrite (proj2 (nth_error_None il i)) by lia. reflexivity.
    - destruct St as [ | -> ]; [discriminate|].
      destruct ds as [|d ds]; [destruct F|]. destruct F as (Ll & F & Ld).
      destruct ds as [|d' ds]; [discriminate|].
      rewrite initialize_SS. cbn [hd tl]. rewrite (proj2 (Nat.leb_le _ _) Ll). cbn [assert_then].
      change (pstrides (d :: d' :: ds)) with (nprod (d' :: ds) :: pstrides (d' :: ds)). cbn [hd tl].
      set (ds' := d' :: ds) in *. cbn [nprod] in B.
      destruct (init_loop_ok (S n) (fun x => initialize dflt (S n) x ds' (pstrides ds')) ds' il p m) as (m' & E & L & O & V).
      + apply Nat.le_trans with (p + d * nprod ds'); [|exact B].
        apply Nat.add_le_mono_l, Nat.mul_le_mono_r. exact Ll.
      + apply Forall_forall. intros x Hx p0 m0 B0. apply IH; [|now right|assumption].
        rewrite Forall_forall in F. now apply F.
      + pose proof (Nat.mul_le_mono_r _ _ (nprod ds') Ll) as Lw.
        exists (p + length il * nprod ds'), m'. split; [exact E|].
        change (nprod (d :: ds')) with (d * nprod ds').
        split; [split; [apply Nat.le_add_r|apply Nat.add_le_mono_l; exact Lw]|].
        split; [assumption|]. split; [exact O|].
        intros is Hs. inversion Hs as [|? i ? is' Hi Hs']; subst. cbv zeta. cbn [row_major_n].
        pose proof (row_major_n_bound ds' is' Hs') as Bi.
        destruct (Nat.ltb_spec (p + (i * nprod ds' + row_major_n ds' is')) (p + length il * nprod ds')) as [Q|Q].
        * assert (Li : i < length il) by nia.
          destruct (nth_error il i) as [x|] eqn:Ei; [|apply nth_error_None in Ei; lia].
          rewrite Nat.add_assoc. rewrite (V i x is' Ei Hs'). unfold value_at.
          rewrite (nd_get_some (S n) il i x is' Ei). reflexivity.
        * assert (Li : length il <= i) by nia. exact (nd_get_none (S n) il i is' Li).
  Qed.

  Lemma tensor_init_ok n (il : ndl T (S n)) ds : fits (S n) il ds -> leading_equal ds ->
    exists m, tensor_init dflt (S n) il ds = Ok m /\ length m = nprod ds
    /\ forall is, in_shape_n ds is -> nth_error m (row_major_n ds is) = Some (Some (value_at (S n) il is)).
  Proof.
    intros F E. unfold tensor_init. rewrite fold_mul_nprod, Nat.mul_1_l.
    destruct (initialize_ok n il ds (strides ds) 0 (repeat None (nprod ds)) F) as (e & m & R & B & L & O & V).
    - destruct n; [now left|]. right. apply strides_proper; [|assumption].
      destruct ds as [|d ds]; [destruct F|]. destruct F as (_ & _ & Ld). simpl. lia.
    - rewrite repeat_length. lia.
    - rewrite R. cbn [bind]. rewrite repeat_length in L.
      destruct (fill_mem_ok m e (nprod ds)) as (m' & E2 & L2 & O2 & V2); [lia|].
      exists m'. split; [exact E2|]. split; [lia|]. intros is Hs. specialize (V is Hs). cbv zeta in V.
      pose proof (row_major_n_bound ds is Hs).
      cbn [Nat.add] in V. destruct (Nat.ltb_spec (row_major_n ds is) e) as [Q|Q].
      + rewrite O2 by lia. exact V.
      + unfold value_at. rewrite V. apply V2. lia.
  Qed.

  (** compute_dimensions: the list fits the result, and the result is at least
      the start. *)
  Definition dle (a b : list nat) : Prop := Forall2 le a b.
  Lemma dle_refl a : dle a a.
  Proof. induction a; constructor; auto. Qed.
  Lemma dle_trans a b c : dle a b -> dle b c -> dle a c.
  Proof.
    intro H. revert c. induction H as [|x y a b L F IH]; intros c H2; inversion H2; subst; constructor; [lia|].
    now apply IH.
  Qed.
  Lemma dle_length a b : dle a b -> length a = length b.
  Proof. induction 1; simpl; congruence. Qed.

  Lemma fits_mono n : forall (il : ndl T n) a b, dle a b -> fits n il a -> fits n il b.
  Proof.
    induction n as [|n IH]; intros il a b D F; cbn [fits] in *.
    - subst. now inversion D.
    - destruct a as [|x a]; [destruct F|]. inversion D as [|? y ? b' L D']; subst.
      destruct F as (F1 & F2 & F3). split; [lia|]. split.
      + eapply Forall_impl; [|exact F2]. intros z Hz. now apply IH with a.
      + rewrite <- (dle_length _ _ D'). assumption.
  Qed.

  Lemma cdims_ok n : forall (il : ndl T n) ds, length ds = n ->
    dle ds (compute_dimensions n il ds) /\ fits n il (compute_dimensions n il ds)
    /\ forall b, dle ds b -> fits n il b -> dle (compute_dimensions n il ds) b.
  Proof.
    induction n as [|n IH]; intros il ds L; cbn [compute_dimensions fits].
    - destruct ds; [|discriminate]. repeat split; try constructor. intros b D _. exact D.
    - destruct ds as [|d ds]; [discriminate|]. injection L as L.
      assert (G : forall (l : list (ndl T n)) ds, length ds = n ->
        let r := fold_left (fun ds x => compute_dimensions n x ds) l ds in
        dle ds r /\ Forall (fun x => fits n x r) l
        /\ forall b, dle ds b -> Forall (fun x => fits n x b) l -> dle r b).
      { clear il ds d L. induction l as [|x l IHl]; intros ds L; cbn [fold_left]; cbv zeta.
        - split; [apply dle_refl|]. split; [constructor|]. intros b D _. exact D.
        - destruct (IH x ds L) as (D1 & F1 & M1).
          destruct (IHl (compute_dimensions n x ds)) as (D2 & F2 & M2).
          { rewrite <- (dle_length _ _ D1). exact L. }
          split; [eapply dle_trans; eassumption|]. split.
          + constructor; [|assumption]. eapply fits_mono; eassumption.
          + intros b D F. inversion F as [|? ? Fx Fl]; subst. apply M2; [|assumption]. now apply M1. }
      destruct (G il ds L) as (D1 & F1 & M1). split; [|split].
      + constructor; [lia|assumption].
      + split; [lia|]. split; [assumption|]. now rewrite <- (dle_length _ _ D1).
      + intros b D F. inversion D as [|? y ? b' Ly D']; subst. destruct F as (Fa & Fb & Fc).
        constructor; [apply Nat.max_lub; assumption|]. now apply M1.
  Qed.

  (** ** Necessary condition *)
  Definition width (ds ss : list nat) : nat :=
    match ds with
    | [] => 0
    | [d] => d
    | d :: _ => d * hd 0 ss
    end.
  Fixpoint chain (ds ss : list nat) : Prop :=
    match ds with
    | [] => True
    | _ :: ds => match ds with
                 | [] => True
                 | _ => width ds (tl ss) <= hd 0 ss /\ chain ds (tl ss)
                 end
    end.

  Lemma init_loop_inv {X} (rec : X -> nat -> mem -> outcome (nat * mem)) s w C :
    (forall x p m e m', rec x p m = Ok (e, m') -> e = p + w /\ length m' = length m /\ C) ->
    forall il p m e m', init_loop dflt rec s il p m = Ok (e, m') ->
    e = p + length il * s /\ length m' = length m
    /\ (0 < length il -> w <= s /\ C /\ e <= length m).
  Proof.
    intro H. induction il as [|x il IH]; intros p m e m' E; cbn [init_loop length] in *.
    - injection E as <- <-. split; [lia|]. split; [reflexivity|]. lia.
    - apply bind_Ok in E as ([e1 m1] & R & E). destruct (H _ _ _ _ _ R) as (-> & L1 & c).
      cbv zeta in E. destruct (Nat.leb_spec (p + s) (length m1)) as [Q|Q]; [|discriminate].
      apply bind_Ok in E as (m2 & Fl & E). apply fill_length in Fl as (L2 & B2).
      destruct (IH _ _ _ _ E) as (-> & L3 & N). split; [lia|]. split; [lia|].
      intros _. split; [lia|]. split; [exact c|].
      destruct il as [|y il]; [cbn [length]; lia|]. cbn [length] in *. specialize (N ltac:(lia)). lia.
  Qed.

  Lemma initialize_inv : forall n (il : ndl T (S n)) ds ss p m e m',
    full (S n) il ds -> Forall (fun d => 0 < d) ds ->
    initialize dflt (S n) il ds ss p m = Ok (e, m') ->
    e = p + width ds ss /\ length m' = length m /\ chain ds ss /\ e <= length m.
  Proof.
    induction n as [|n IH]; intros il ds ss p m e m' F P E.
    - destruct ds as [|d ds]; [destruct F|]. destruct F as (Ll & F & Ld). destruct ds; [|discriminate].
      rewrite initialize_1 in E. cbn [hd] in E.
      destruct (length il <=? d); [|discriminate]. cbn [assert_then] in E.
      apply put_all_length in E as (L & -> & B). cbn [width chain]. cbn [ndl] in *. rewrite <- Ll. auto.
    - destruct ds as [|d ds]; [destruct F|]. destruct F as (Ll & F & Ld). destruct ds as [|d' ds]; [discriminate|].
      rewrite initialize_SS in E. cbn [hd tl] in E.
      destruct (length il <=? d); [|discriminate]. cbn [assert_then] in E.
      set (ds' := d' :: ds) in *. assert (Pd : 0 < d) by now inversion P. assert (P' : Forall (fun d => 0 < d) ds') by now inversion P.
      (* restrict to the elements of the list, all of them full *)
      assert (G : forall (l : list (ndl T (S n))) p m e m', Forall (fun x => full (S n) x ds') l ->
        init_loop dflt (fun x => initialize dflt (S n) x ds' (tl ss)) (hd 0 ss) l p m = Ok (e, m') ->
        e = p + length l * hd 0 ss /\ length m' = length m
        /\ (0 < length l -> width ds' (tl ss) <= hd 0 ss /\ chain ds' (tl ss) /\ e <= length m)).
      { clear il Ll F E p m e m'. induction l as [|x l IHl]; intros p m e m' Fl E; cbn [init_loop length] in *.
        - injection E as <- <-. split; [lia|]. split; [reflexivity|]. lia.
        - inversion Fl as [|? ? Fx Fl']; subst.
          apply bind_Ok in E as ([e1 m1] & R & E).
          destruct (IH x ds' (tl ss) p m e1 m1 Fx P' R) as (-> & L1 & c & B1).
          cbv zeta in E. destruct (Nat.leb_spec (p + hd 0 ss) (length m1)) as [Q|Q]; [|discriminate].
          apply bind_Ok in E as (m2 & Fi & E). apply fill_length in Fi as (L2 & B2).
          destruct (IHl _ _ _ _ Fl' E) as (-> & L3 & N). split; [lia|]. split; [lia|].
          intros _. split; [lia|]. split; [exact c|].
          destruct l as [|y l]; [cbn [length]; lia|]. cbn [length] in *. specialize (N ltac:(lia)). lia. }
      destruct (G il p m e m' F E) as (-> & L & N).
      assert (Ll' : @length (ndl T (S n)) il = d) by exact Ll. rewrite Ll' in N |- *.
      destruct (N Pd) as (N1 & N2 & N3). unfold ds' in *. cbn [width chain]. auto.
  Qed.

  Lemma chain_nth : forall ds ss j, chain ds ss -> S (S j) < length ds -> length ss = length ds - 1 ->
    nth (S j) ds 0 * nth (S j) ss 0 <= nth j ss 0.
  Proof.
    induction ds as [|d ds IH]; intros ss j C H L; [simpl in H; lia|].
    destruct ds as [|d' ds]; [simpl in H; lia|]. cbn [chain] in C. destruct C as [C1 C2].
    destruct ss as [|s ss]; [simpl in *; lia|]. cbn [tl hd] in *.
    destruct j.
    - destruct ds as [|d'' ds]; [simpl in H; lia|]. cbn [width] in C1. destruct ss; [simpl in *; lia|].
      cbn [hd] in C1. exact C1.
    - cbn [nth]. apply (IH ss j C2); cbn [length] in *; lia.
  Qed.

  Lemma tensor_init_inv n (il : ndl T (S n)) ds m : full (S n) il ds -> Forall (fun d => 0 < d) ds ->
    tensor_init dflt (S n) il ds = Ok m -> leading_equal ds.
  Proof.
    intros F P E. assert (Ln : length ds = S n).
    { destruct ds as [|d ds]; [destruct F|]. destruct F as (_ & _ & Ld). simpl. lia. }
    unfold tensor_init in E. rewrite fold_mul_nprod, Nat.mul_1_l in E.
    apply bind_Ok in E as ([e m1] & R & E).
    destruct (initialize_inv n il ds (strides ds) 0 _ e m1 F P R) as (-> & L & C & B).
    rewrite repeat_length in *.
    destruct (Nat.lt_ge_cases (length ds) 3) as [S3|S3].
    { intros j Hj. lia. }
    destruct (strides_spec ds ltac:(lia)) as (SL & S1 & S2).
    assert (Pn : forall j, j < length ds -> 0 < nth j ds 0).
    { intros j Hj. rewrite Forall_forall in P. apply P. now apply nth_In. }
    assert (Ps : forall k j, j + k = length ds - 2 -> 0 < nth j (strides ds) 0).
    { induction k as [|k IH]; intros j Hj.
      - replace j with (length ds - 2) by lia. rewrite S1. apply Pn. lia.
      - rewrite S2 by lia. specialize (IH (S j) ltac:(lia)). specialize (Pn j ltac:(lia)). nia. }
    (* descending *)
    assert (D : forall j, S (S j) < length ds -> nth (S j) ds 0 <= nth j ds 0).
    { intros j Hj. pose proof (chain_nth ds (strides ds) j C Hj SL) as Q.
      rewrite (S2 j) in Q by lia. specialize (Ps (length ds - 2 - S j) (S j) ltac:(lia)). nia. }
    (* strides[0] * dims[N-2] = product *)
    assert (Q : forall k j, j + k = length ds - 2 ->
      nth j (strides ds) 0 * nth (length ds - 2) ds 0 = nprod (skipn j ds)).
    { induction k as [|k IH]; intros j Hj.
      - replace j with (length ds - 2) by lia. rewrite S1. rewrite nprod_skipn by lia.
        replace (S (length ds - 2)) with (length ds - 1) by lia. rewrite nprod_skipn by lia.
        rewrite (skipn_all2 (n := S (length ds - 1))) by lia. cbn [nprod]. lia.
      - rewrite S2 by lia. rewrite (nprod_skipn ds j) by lia. rewrite <- (IH (S j)) by lia. lia. }
    assert (W : width ds (strides ds) = nth 0 ds 0 * nth 0 (strides ds) 0).
    { destruct ds as [|d [|d' ds]]; [simpl in *; lia|simpl in *; lia|]. cbn [width nth].
      destruct (strides (d :: d' :: ds)); reflexivity. }
    rewrite W in B. rewrite <- (Q (length ds - 2) 0 ltac:(lia) : _ = nprod ds) in B.
    specialize (Ps (length ds - 2) 0 ltac:(lia)).
    assert (Top : nth 0 ds 0 <= nth (length ds - 2) ds 0) by nia.
    assert (Dm : forall k j, j + k < length ds - 1 -> nth (j + k) ds 0 <= nth j ds 0).
    { induction k as [|k IH]; intros j Hj; [rewrite Nat.add_0_r; lia|].
      specialize (IH j ltac:(lia)). specialize (D (j + k) ltac:(lia)). rewrite Nat.add_succ_r. lia. }
    intros j Hj.
    pose proof (D j ltac:(lia)). pose proof (Dm j 0 ltac:(lia)).
    pose proof (Dm (length ds - 2 - S j) (S j) ltac:(lia)) as Z.
    replace (S j + (length ds - 2 - S j)) with (length ds - 2) in Z by lia.
    cbn [Nat.add] in *. lia.
  Qed.

  Lemma full_fits n : forall (il : ndl T n) ds, full n il ds -> fits n il ds.
  Proof.
    induction n as [|n IH]; intros il ds F; cbn [full fits] in *; [assumption|].
    destruct ds as [|d ds]; [assumption|]. destruct F as (A & B & C). split; [lia|]. split; [|assumption].
    eapply Forall_impl; [|exact B]. intros. now apply IH.
  Qed.
End Mem.
