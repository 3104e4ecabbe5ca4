(** Proofs about tensors as objects in memory (C141). *)
From Coq Require Import ZArith List Bool PeanoNat Lia.
From Verif Require Import Outcome ListLemmas ContainerModel ContainerProofs TenMemModel.
Import ListNotations.
Local Open Scope Z_scope.

(** ** Specification *)
(** Dimensions whose number of elements fits size_t. *)
Definition fits (ds : list Z) : Prop := Forall (fun d => 0 <= d) ds /\ zprod ds < 2 ^ 64.
(** All the elements of the tensor lie in a block of the memory. *)
Definition valid {T} (m : @memory T) (t : ten) : Prop :=
  fits (t_dims t) /\
  exists b o c, t_data t = Some (b, o) /\ nth_error m b = Some c /\
    0 <= o /\ o + zprod (t_dims t) <= Z.of_nat (length c).
(** Tensors without a common element. *)
Definition apart (t u : ten) : Prop :=
  match t_data t, t_data u with
  | Some (b, o), Some (b', o') =>
      b <> b' \/ o + zprod (t_dims t) <= o' \/ o' + zprod (t_dims u) <= o
  | _, _ => True
  end.
(** The tensor has its block for itself. *)
Definition owns {T} (m : @memory T) (t : ten) : Prop :=
  fits (t_dims t) /\
  exists b c, t_data t = Some (b, 0) /\ nth_error m b = Some c /\ Z.of_nat (length c) = zprod (t_dims t).

(** ** Helpers *)
Lemma zprod_nonneg ds : Forall (fun d => 0 <= d) ds -> 0 <= zprod ds.
Proof. induction 1; cbn [zprod]; [lia|]. nia. Qed.

Lemma product_fits ds : fits ds -> compute_product ds = zprod ds.
Proof.
  intros [F B]. rewrite compute_product_mod. apply Z.mod_small.
  split; [now apply zprod_nonneg|assumption].
Qed.

Lemma owns_valid {T} (m : @memory T) t : owns m t -> valid m t.
Proof.
  intros (F & b & c & D & N & L). split; [assumption|]. exists b, 0, c. repeat split; try assumption; lia.
Qed.

Lemma fits_tail d ds i : fits (d :: ds) -> 0 <= i < d -> fits ds.
Proof.
  intros [F B] Hi. inversion F as [|? ? Hd Fd]; subst. split; [assumption|].
  cbn [zprod] in B. pose proof (zprod_nonneg ds Fd). nia.
Qed.

Lemma skipn_add {A} a : forall b (l : list A), skipn a (skipn b l) = skipn (b + a) l.
Proof.
  induction b as [|b IH]; intros [|x l]; cbn [skipn Nat.add]; try reflexivity; [now rewrite skipn_nil|apply IH].
Qed.

Lemma skipn_at {A} : forall (l : list A) i e, nth_error l i = Some e -> skipn i l = e :: skipn (S i) l.
Proof.
  induction l as [|x l IH]; intros [|i] e H; try discriminate; [now injection H as ->|]. exact (IH i e H).
Qed.

Lemma nth_error_skipn {A} k : forall (l : list A) i, nth_error (skipn k l) i = nth_error l (k + i).
Proof. induction k as [|k IH]; intros [|x l] i; cbn [skipn Nat.add nth_error]; try reflexivity; [now destruct i|apply IH]. Qed.

Lemma nth_error_firstn {A} k : forall (l : list A) i, (i < k)%nat -> nth_error (firstn k l) i = nth_error l i.
Proof.
  induction k as [|k IH]; intros [|x l] [|i] H; cbn [firstn nth_error]; try reflexivity; try lia. apply IH. lia.
Qed.

Section Mem.
  Context {T : Type}.
  Implicit Types (m : @memory T) (c : list (option T)).

  Lemma list_set_nth_same {A} (l : list A) i x y : nth_error l i = Some y -> nth_error (list_set l i x) i = Some x.
  Proof. intro H. apply list_set_same. apply nth_error_Some. congruence. Qed.

  Lemma write_all_ok xs : forall m b c o, nth_error m b = Some c -> 0 <= o ->
    o + Z.of_nat (length xs) <= Z.of_nat (length c) ->
    write_all m (b, o) xs =
      Ok (list_set m b (firstn (Z.to_nat o) c ++ map Some xs ++ skipn (Z.to_nat o + length xs) c)).
  Proof.
    induction xs as [|x xs IH]; intros m b c o N O L.
    - cbn [write_all map app length]. rewrite Nat.add_0_r, firstn_skipn. now rewrite list_set_id.
    - cbn [length] in L. cbn [write_all]. unfold mwrite. cbn [fst snd]. rewrite N.
      rewrite (proj2 (Z.leb_le 0 o)) by lia. rewrite (proj2 (Z.ltb_lt o (Z.of_nat (length c)))) by lia.
      cbn [andb bind].
      rewrite (IH _ b (list_set c (Z.to_nat o) (Some x)) (o + 1)).
      + rewrite list_set_set. f_equal. f_equal.
        replace (Z.to_nat (o + 1)) with (S (Z.to_nat o)) by lia.
        assert (Lo : (Z.to_nat o < length c)%nat) by lia.
        rewrite list_set_eq by assumption.
        assert (Fl : length (firstn (Z.to_nat o) c) = Z.to_nat o) by (rewrite firstn_length; lia).
        rewrite firstn_app, Fl. replace (S (Z.to_nat o) - Z.to_nat o)%nat with 1%nat by lia.
        rewrite firstn_all2 by lia. cbn [firstn]. rewrite <- app_assoc. cbn [app map length]. f_equal. f_equal. f_equal.
        rewrite skipn_app, Fl. rewrite skipn_all2 by lia. cbn [app].
        replace (S (Z.to_nat o) + length xs - Z.to_nat o)%nat with (S (length xs)) by lia. rewrite skipn_cons.
        rewrite skipn_add. f_equal. lia.
      + eapply list_set_nth_same; eassumption.
      + lia.
      + rewrite list_set_length. lia.
  Qed.

  (** Reading consecutive elements gives the contents of the block. *)
  Lemma read_all_ok n : forall m b c o xs, nth_error m b = Some c -> 0 <= o ->
    o + Z.of_nat n <= Z.of_nat (length c) ->
    (read_all m (b, o) n = Ok xs <-> firstn n (skipn (Z.to_nat o) c) = map Some xs).
  Proof.
    induction n as [|n IH]; intros m b c o xs N O L.
    - cbn [read_all firstn]. split; [now intros [= <-]|]. destruct xs; [reflexivity|discriminate].
    - cbn [read_all]. unfold mread. cbn [fst snd]. rewrite N.
      rewrite (proj2 (Z.leb_le 0 o)) by lia.
      destruct (nth_error c (Z.to_nat o)) as [e|] eqn:E; [|apply nth_error_None in E; lia].
      assert (S : skipn (Z.to_nat o) c = e :: skipn (Z.to_nat (o + 1)) c).
      { replace (Z.to_nat (o + 1)) with (Datatypes.S (Z.to_nat o)) by lia. now apply skipn_at. }
      rewrite S. cbn [firstn].
      assert (R : forall ys, read_all m (b, o + 1) n = Ok ys <-> firstn n (skipn (Z.to_nat (o + 1)) c) = map Some ys)
        by (intro ys; apply IH; (assumption || lia)).
      destruct e as [x|]; cbn [bind].
      + destruct (read_all m (b, o + 1) n) as [ys| | | |] eqn:Q; cbn [bind]; split;
          try discriminate; try (intros [= <-]; cbn [map]; f_equal; now apply R).
        * destruct xs as [|x' xs]; [discriminate|]. cbn [map]. intros [= <- H].
          apply R in H. congruence.
        * destruct xs as [|x' xs]; [discriminate|]. cbn [map]. intros [= <- H]. apply R in H. congruence.
        * destruct xs as [|x' xs]; [discriminate|]. cbn [map]. intros [= <- H]. apply R in H. congruence.
        * destruct xs as [|x' xs]; [discriminate|]. cbn [map]. intros [= <- H]. apply R in H. congruence.
        * destruct xs as [|x' xs]; [discriminate|]. cbn [map]. intros [= <- H]. apply R in H. congruence.
      + split; [discriminate|]. destruct xs; discriminate.
  Qed.

  Lemma t_at_ok m t b o c is : fits (t_dims t) -> t_data t = Some (b, o) -> nth_error m b = Some c -> 0 <= o ->
    in_shape (t_dims t) is ->
    t_at m t is = match nth_error c (Z.to_nat (o + row_major (t_dims t) is)) with Some (Some x) => Ok x | _ => UB end.
  Proof.
    intros F D N O S. unfold t_at. rewrite get_index_ok by (assumption || destruct F; lia). cbn [bind].
    unfold t_addr. rewrite D. cbn [bind]. unfold mread. cbn [fst snd]. rewrite N.
    pose proof (row_major_bound _ _ S). now rewrite (proj2 (Z.leb_le 0 _)) by lia.
  Qed.

  Lemma t_set_ok m t b o c is x : fits (t_dims t) -> t_data t = Some (b, o) -> nth_error m b = Some c -> 0 <= o ->
    o + zprod (t_dims t) <= Z.of_nat (length c) ->
    in_shape (t_dims t) is ->
    t_set m t is x = Ok (list_set m b (list_set c (Z.to_nat (o + row_major (t_dims t) is)) (Some x))).
  Proof.
    intros F D N O L S. unfold t_set. rewrite get_index_ok by (assumption || destruct F; lia). cbn [bind].
    unfold t_addr. rewrite D. cbn [bind]. unfold mwrite. cbn [fst snd]. rewrite N.
    pose proof (row_major_bound _ _ S).
    rewrite (proj2 (Z.leb_le 0 _)) by lia. now rewrite (proj2 (Z.ltb_lt _ _)) by lia.
  Qed.

  (** *** Changing one block *)
  Lemma valid_list_set m b c c' t : nth_error m b = Some c -> length c' = length c ->
    valid m t -> valid (list_set m b c') t.
  Proof.
    intros N L (F & b' & o & d & D & Nd & O & B). split; [assumption|].
    destruct (Nat.eq_dec b b') as [<-|Q].
    - exists b, o, c'. rewrite N in Nd. injection Nd as <-.
      repeat split; try assumption; [eapply list_set_nth_same; eassumption|lia].
    - exists b', o, d. repeat split; try assumption. now rewrite list_set_other.
  Qed.

  Lemma owns_list_set m b c c' t : nth_error m b = Some c -> length c' = length c ->
    owns m t -> owns (list_set m b c') t.
  Proof.
    intros N L (F & b' & d & D & Nd & B). split; [assumption|].
    destruct (Nat.eq_dec b b') as [<-|Q].
    - exists b, c'. rewrite N in Nd. injection Nd as <-.
      repeat split; try assumption; [eapply list_set_nth_same; eassumption|lia].
    - exists b', d. repeat split; try assumption. now rewrite list_set_other.
  Qed.

  Lemma valid_app m e t : valid m t -> valid (m ++ [e]) t.
  Proof.
    intros (F & b & o & c & D & N & O & B). split; [assumption|]. exists b, o, c.
    repeat split; try assumption. rewrite nth_error_app1; [assumption|]. apply nth_error_Some. congruence.
  Qed.

  Lemma at_app m e t is : valid m t -> t_at (m ++ [e]) t is = t_at m t is.
  Proof.
    intros (F & b & o & c & D & N & O & B). unfold t_at, t_addr, mread. rewrite D. cbn [bind fst snd].
    rewrite nth_error_app1 by (apply nth_error_Some; congruence). reflexivity.
  Qed.

  (** *** Construction *)
  Lemma new_frame m e e' t : valid m t ->
    let m' := list_set (m ++ [e]) (length m) e' in
    valid m' t /\ forall is, t_at m' t is = t_at m t is.
  Proof.
    intros V m'.
    assert (E : m' = m ++ [e']).
    { unfold m'. clear. induction m as [|x m IH]; cbn [app length list_set]; [reflexivity|now f_equal]. }
    rewrite E. split; [now apply valid_app|]. intro is. now apply at_app.
  Qed.

  Lemma nth_error_last m (e : list (option T)) : nth_error (m ++ [e]) (length m) = Some e.
  Proof. rewrite nth_error_app2 by lia. now rewrite Nat.sub_diag. Qed.

  Lemma t_new_ok m ds : fits ds ->
    let '(m', t) := t_new m ds in
    t_dims t = ds /\ owns m' t /\
    (forall is, in_shape ds is -> t_at m' t is = UB) /\
    forall u, valid m u -> valid m' u /\ apart t u /\ forall is, t_at m' u is = t_at m u is.
  Proof.
    intro F. unfold t_new. rewrite product_fits by assumption.
    pose proof (zprod_nonneg ds (proj1 F)) as P.
    split; [reflexivity|]. split; [|split].
    - split; [exact F|]. eexists _, _. split; [reflexivity|]. split; [apply nth_error_last|].
      rewrite repeat_length. cbn [t_dims]. lia.
    - intros is S. erewrite t_at_ok; [|exact F|reflexivity|apply nth_error_last|lia|exact S].
      cbn [t_dims]. destruct (nth_error _ _) as [e|] eqn:E; [|reflexivity].
      apply nth_error_In, repeat_spec in E. now subst.
    - intros u V. split; [now apply valid_app|]. split; [|intro is; now apply at_app].
      destruct V as (_ & b & o & c & D & N & _). unfold apart. cbn [t_data]. rewrite D. left.
      assert (b < length m)%nat by (apply nth_error_Some; congruence). lia.
  Qed.

  Lemma write_new_ok m ds xs : fits ds -> Z.of_nat (length xs) = zprod ds ->
    let '(m0, t) := t_new m ds in
    exists m', (do a <- t_addr t 0; do m <- write_all m0 a xs; Ok (m, t)) = Ok (m', t) /\
      t_dims t = ds /\ owns m' t /\
      t_elems m' t = Ok xs /\
      forall u, valid m u -> valid m' u /\ apart t u /\ forall is, t_at m' u is = t_at m u is.
  Proof.
    intros F L. pose proof (zprod_nonneg ds (proj1 F)) as P. pose proof (t_new_ok m ds F) as TN.
    unfold t_new in *. rewrite product_fits in * by assumption.
    destruct TN as (_ & _ & _ & Fr).
    unfold t_addr. cbn [t_data bind]. rewrite Z.add_0_r.
    pose proof (nth_error_last m (repeat None (Z.to_nat (zprod ds)))) as NL.
    rewrite (write_all_ok xs _ _ _ _ NL) by (try rewrite repeat_length; lia). cbn [bind].
    eexists. split; [reflexivity|]. split; [reflexivity|].
    set (e' := firstn _ _ ++ _).
    assert (E : e' = map Some xs).
    { unfold e'. cbn [Z.to_nat Nat.add firstn app]. rewrite skipn_all2 by (rewrite repeat_length; lia). apply app_nil_r. }
    rewrite E. clear e' E.
    assert (Q : nth_error (list_set (m ++ [repeat None (Z.to_nat (zprod ds))]) (length m) (map Some xs)) (length m) = Some (map Some xs))
      by (eapply list_set_nth_same; exact NL).
    split; [|split].
    - split; [exact F|]. eexists _, _. split; [reflexivity|]. split; [exact Q|]. rewrite map_length. exact L.
    - unfold t_elems. cbn [t_data]. unfold t_size. cbn [t_dims]. rewrite product_fits by assumption.
      apply (read_all_ok _ _ _ _ _ _ Q); [lia|rewrite map_length; lia|].
      cbn [Z.to_nat skipn]. rewrite firstn_all2; [reflexivity|rewrite map_length; lia].
    - intros u V. pose proof (new_frame m (repeat None (Z.to_nat (zprod ds))) (map Some xs) u V) as [V' A].
      split; [assumption|]. split; [|assumption]. now apply Fr.
  Qed.

  (** *** Iteration *)
  Lemma elems_ok m t xs : valid m t ->
    (t_elems m t = Ok xs <->
     Z.of_nat (length xs) = zprod (t_dims t) /\
     forall is, in_shape (t_dims t) is ->
       exists x, nth_error xs (Z.to_nat (row_major (t_dims t) is)) = Some x /\ t_at m t is = Ok x).
  Proof.
    intros (F & b & o & c & D & N & O & L). pose proof (zprod_nonneg _ (proj1 F)) as P.
    unfold t_elems. rewrite D. unfold t_size. rewrite product_fits by assumption.
    rewrite (read_all_ok _ _ _ _ _ _ N) by lia.
    set (w := firstn _ _).
    assert (Lw : length w = Z.to_nat (zprod (t_dims t))).
    { unfold w. rewrite firstn_length, skipn_length. lia. }
    assert (W : forall k, (k < length w)%nat -> nth_error w k = nth_error c (Z.to_nat o + k)).
    { intros k Hk. unfold w. rewrite nth_error_firstn by (rewrite <- Lw; exact Hk). apply nth_error_skipn. }
    assert (A : forall is, in_shape (t_dims t) is ->
              t_at m t is = match nth_error w (Z.to_nat (row_major (t_dims t) is)) with Some (Some x) => Ok x | _ => UB end).
    { intros is S. pose proof (row_major_bound _ _ S). rewrite (t_at_ok m t b o c is) by assumption.
      rewrite W by lia. rewrite Z2Nat.inj_add by lia. reflexivity. }
    split.
    - intro E. split; [rewrite <- (map_length Some xs), <- E; lia|].
      intros is S. pose proof (row_major_bound _ _ S) as B. rewrite (A is S), E, nth_error_map.
      destruct (nth_error xs _) as [x|] eqn:Q; cbn [option_map]; [now exists x|].
      apply nth_error_None in Q. rewrite E, map_length in Lw. lia.
    - intros [Lx H].
      assert (G : forall k, nth_error w k = nth_error (map Some xs) k).
      { intro k. destruct (Nat.lt_ge_cases k (length w)) as [Hk|Hk].
        - destruct (row_major_surj (t_dims t) (Z.of_nat k) (proj1 F)) as (is & S & R); [lia|].
          destruct (H is S) as (x & Nx & Ax). rewrite (A is S) in Ax. rewrite R, Nat2Z.id in Nx, Ax.
          rewrite nth_error_map, Nx. cbn [option_map].
          destruct (nth_error w k) as [[y|]|]; congruence.
        - rewrite (proj2 (nth_error_None _ _)) by assumption. symmetry. apply nth_error_None. rewrite map_length. lia. }
      clear -G. revert xs G. induction w as [|e w IH]; intros [|x xs] G; cbn [map]; try reflexivity.
      + specialize (G 0%nat). discriminate.
      + specialize (G 0%nat). discriminate.
      + f_equal; [specialize (G 0%nat); now injection G|]. apply IH. intro k. exact (G (S k)).
  Qed.

  (** *** Writes *)
  Lemma set_ok m t is x : valid m t -> in_shape (t_dims t) is ->
    exists m', t_set m t is x = Ok m' /\ t_at m' t is = Ok x /\
      (forall js, in_shape (t_dims t) js -> js <> is -> t_at m' t js = t_at m t js) /\
      (forall u, valid m u -> valid m' u /\ (owns m u -> owns m' u) /\
         (apart t u -> forall js, in_shape (t_dims u) js -> t_at m' u js = t_at m u js)).
  Proof.
    intros (F & b & o & c & D & N & O & L) S. pose proof (row_major_bound _ _ S) as B.
    rewrite (t_set_ok m t b o c) by assumption. eexists. split; [reflexivity|].
    set (c' := list_set c _ _).
    assert (N' : nth_error (list_set m b c') b = Some c') by (eapply list_set_nth_same; eassumption).
    assert (Lc : length c' = length c) by apply list_set_length.
    split; [|split].
    - rewrite (t_at_ok _ t b o c') by assumption. unfold c'. rewrite list_set_same by lia. reflexivity.
    - intros js Sj Q. pose proof (row_major_bound _ _ Sj) as Bj.
      rewrite (t_at_ok _ t b o c') by assumption. rewrite (t_at_ok m t b o c) by assumption.
      unfold c'. rewrite list_set_other; [reflexivity|]. intro E. apply Q. symmetry.
      apply row_major_inj with (t_dims t); try assumption. lia.
    - intros u V. split; [eapply valid_list_set; eassumption|]. split; [intro; eapply owns_list_set; eassumption|].
      destruct V as (Fu & bu & ou & cu & Du & Nu & Ou & Lu). unfold apart. rewrite D, Du. intros AP js Sj.
      pose proof (row_major_bound _ _ Sj) as Bj.
      destruct (Nat.eq_dec b bu) as [<-|Q].
      + rewrite N in Nu. injection Nu as <-.
        rewrite (t_at_ok _ u b ou c') by assumption. rewrite (t_at_ok m u b ou c) by assumption.
        unfold c'. rewrite list_set_other; [reflexivity|]. destruct AP as [AP|AP]; [contradiction|]. lia.
      + rewrite (t_at_ok _ u bu ou cu) by (try assumption; now rewrite list_set_other).
        now rewrite (t_at_ok m u bu ou cu) by assumption.
  Qed.

  (** *** Views *)
  Lemma sub_ok m t d ds i : valid m t -> t_dims t = d :: ds -> 0 <= i < d ->
    exists v, t_sub t i = Ok v /\ valid m v /\ t_dims v = ds /\
      (exists b o, t_data t = Some (b, o) /\ t_data v = Some (b, o + i * zprod ds)).
  Proof.
    intros (F & b & o & c & D & N & O & L) E Hi. rewrite E in F, L.
    pose proof (fits_tail d ds i F Hi) as Ft. pose proof (zprod_nonneg ds (proj1 Ft)) as P.
    cbn [zprod] in L. pose proof (proj2 F) as B. cbn [zprod] in B.
    unfold t_sub. rewrite E. rewrite (proj2 (Z.leb_le 0 i)) by lia. rewrite (proj2 (Z.ltb_lt i d)) by lia.
    cbn [andb assert_then]. unfold t_addr. rewrite D. cbn [bind]. rewrite product_fits by assumption.
    unfold w64. rewrite Z.mod_small by nia.
    eexists. split; [reflexivity|]. split; [|split].
    - split; [exact Ft|]. exists b, (o + i * zprod ds), c. cbn [t_data t_dims]. repeat split; try assumption; nia.
    - reflexivity.
    - exists b, o. auto.
  Qed.

  Lemma sub_at m t d ds i v is : valid m t -> t_dims t = d :: ds -> 0 <= i < d -> t_sub t i = Ok v ->
    in_shape ds is ->
    t_at m v is = t_at m t (i :: is) /\ forall x, t_set m v is x = t_set m t (i :: is) x.
  Proof.
    intros V E Hi S Si. destruct (sub_ok m t d ds i V E Hi) as (v' & S' & V' & Dv & b & o & D & Dd).
    rewrite S in S'. injection S' as <-.
    destruct V as (F & b' & o' & c & D' & N & O & L). rewrite D in D'. injection D' as <- <-.
    destruct V' as (Fv & b' & o' & c' & D' & N' & O' & L'). rewrite Dd in D'. injection D' as <- <-.
    rewrite N in N'. injection N' as <-.
    assert (Sx : in_shape (t_dims t) (i :: is)) by (rewrite E; constructor; assumption).
    assert (Sv : in_shape (t_dims v) is) by (rewrite Dv; assumption).
    assert (R : o + i * zprod ds + row_major (t_dims v) is = o + row_major (t_dims t) (i :: is)).
    { rewrite E, Dv. cbn [row_major]. lia. }
    split.
    - rewrite (t_at_ok m v _ _ c is Fv Dd N O' Sv), R. now rewrite (t_at_ok m t _ _ c _ F D N O Sx).
    - intro x. rewrite (t_set_ok m v _ _ c is x Fv Dd N O' L' Sv), R. now rewrite (t_set_ok m t _ _ c _ x F D N O L Sx).
  Qed.

  Lemma sub_elems m t d ds i v xs : valid m t -> t_dims t = d :: ds -> 0 <= i < d -> t_sub t i = Ok v ->
    t_elems m t = Ok xs ->
    t_elems m v = Ok (firstn (Z.to_nat (zprod ds)) (skipn (Z.to_nat (i * zprod ds)) xs)).
  Proof.
    intros V E Hi S X. destruct (sub_ok m t d ds i V E Hi) as (v' & S' & V' & Dv & _).
    rewrite S in S'. injection S' as <-.
    pose proof (proj1 (elems_ok m t xs V) X) as [Lx H].
    pose proof (zprod_nonneg ds) as P. pose proof (proj1 V) as F. rewrite E in F, Lx. cbn [zprod] in Lx.
    specialize (P (proj1 (fits_tail d ds i F Hi))).
    apply elems_ok; [assumption|]. rewrite Dv. split.
    - rewrite firstn_length, skipn_length. nia.
    - intros is Si. pose proof (row_major_bound _ _ Si) as B.
      destruct (H (i :: is)) as (x & Nx & Ax); [rewrite E; constructor; assumption|].
      exists x. split.
      + rewrite nth_error_firstn by lia. rewrite nth_error_skipn.
        rewrite <- Nx. f_equal. rewrite E. cbn [row_major]. nia.
      + rewrite <- Ax. now apply (sub_at m t d ds i v is V E Hi S Si).
  Qed.

  Lemma sub_apart m t d ds i j v w : valid m t -> t_dims t = d :: ds -> 0 <= i < d -> 0 <= j < d -> i <> j ->
    t_sub t i = Ok v -> t_sub t j = Ok w -> apart v w.
  Proof.
    intros V E Hi Hj Q Sv Sw.
    destruct (sub_ok m t d ds i V E Hi) as (v' & Sv' & Vv & Dv & b & o & D & Dd).
    rewrite Sv in Sv'. injection Sv' as <-.
    destruct (sub_ok m t d ds j V E Hj) as (w' & Sw' & Vw & Dw & b' & o' & D' & Dd').
    rewrite Sw in Sw'. injection Sw' as <-. rewrite D in D'. injection D' as <- <-.
    unfold apart. rewrite Dd, Dd', Dv, Dw. right.
    pose proof (zprod_nonneg ds (proj1 (fits_tail d ds i ltac:(rewrite <- E; apply V) Hi))). nia.
  Qed.
End Mem.
