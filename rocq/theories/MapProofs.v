(** Proofs about maps (C58, C59). *)
From Coq Require Import ZArith List Bool Lia PeanoNat.
From Verif Require Import Outcome IntTypes ListLemmas MapModel.
Import ListNotations.
Local Open Scope Z_scope.

Section Assoc.
  Context {K V : Type}.
  Variable keq : K -> K -> bool.
  Hypothesis keq_ok : forall a b, keq a b = true <-> a = b.

  Lemma keq_refl k : keq k k = true.
  Proof. now apply keq_ok. Qed.

  Lemma a_find_assign_same (m : list (K * V)) k v : a_find keq (a_assign keq m k v) k = Some v.
  Proof.
    induction m as [|[k' v'] m IH]; simpl.
    - now rewrite keq_refl.
    - destruct (keq k' k) eqn:E; simpl; rewrite E; [reflexivity|assumption].
  Qed.

  Lemma a_find_assign_other (m : list (K * V)) k k' v : k <> k' ->
    a_find keq (a_assign keq m k v) k' = a_find keq m k'.
  Proof.
    intro N. induction m as [|[k0 v0] m IH]; simpl.
    - destruct (keq k k') eqn:E; [apply keq_ok in E; contradiction|reflexivity].
    - destruct (keq k0 k) eqn:E; simpl.
      + apply keq_ok in E as ->.
        destruct (keq k k') eqn:E; [apply keq_ok in E; contradiction|reflexivity].
      + destruct (keq k0 k'); [reflexivity|assumption].
  Qed.

  Lemma a_find_none (m : list (K * V)) k : a_find keq m k = None <-> ~ In k (map fst m).
  Proof.
    induction m as [|[k' v'] m IH]; simpl; [easy|].
    destruct (keq k' k) eqn:E.
    - apply keq_ok in E as ->. split; [discriminate|]. intro H. exfalso. auto.
    - rewrite IH. split; [|tauto]. intros H [->|]; [rewrite keq_refl in E; discriminate|auto].
  Qed.

  Lemma a_find_app (m n : list (K * V)) k :
    a_find keq (m ++ n) k = match a_find keq m k with Some v => Some v | None => a_find keq n k end.
  Proof. induction m as [|[k' v'] m IH]; simpl; [reflexivity|]. destruct (keq k' k); [reflexivity|assumption]. Qed.
End Assoc.

(** ** Accounting map *)
Section Accounting.
  Context {K : Type}.
  Variable keq : K -> K -> bool.
  Hypothesis keq_ok : forall a b, keq a b = true <-> a = b.
  Variable vt : ity.
  Hypothesis vt_pos : 0 < bits vt.

  (** First occurrences in order. *)
  Fixpoint distinct_after (seen ks : list K) : list K :=
    match ks with
    | [] => seen
    | k :: ks => if existsb (keq k) seen then distinct_after seen ks else distinct_after (seen ++ [k]) ks
    end.
  Definition distinct (ks : list K) : list K := distinct_after [] ks.

  Fixpoint numbered (i : Z) (ks : list K) : list (K * Z) :=
    match ks with [] => [] | k :: ks => (k, wrap vt i) :: numbered (i + 1) ks end.

  Lemma numbered_app i a b : numbered i (a ++ b) = numbered i a ++ numbered (i + Z.of_nat (length a)) b.
  Proof.
    revert i. induction a as [|k a IH]; intro i; simpl.
    - f_equal. lia.
    - f_equal. rewrite IH. f_equal. f_equal. lia.
  Qed.

  Lemma numbered_fst i ks : map fst (numbered i ks) = ks.
  Proof. revert i. induction ks; intro i; simpl; [reflexivity|]. now rewrite IHks. Qed.

  Lemma numbered_length i ks : length (numbered i ks) = length ks.
  Proof. rewrite <- (map_length fst), numbered_fst. reflexivity. Qed.

  (** State reached after looking up keys whose distinct list is [ds]. *)
  Definition acc_state (m : acc_map) (ds : list K) : Prop :=
    acc_range m = numbered 0 ds /\ acc_inverse m = ds /\ NoDup ds.

  Fixpoint index_of (k : K) (ds : list K) : option nat :=
    match ds with
    | [] => None
    | d :: ds => if keq d k then Some 0%nat else option_map S (index_of k ds)
    end.

  Lemma find_numbered k ds : forall i,
    a_find keq (numbered i ds) k
    = option_map (fun j => wrap vt (i + Z.of_nat j)) (index_of k ds).
  Proof.
    induction ds as [|d ds IH]; intro i; simpl; [reflexivity|].
    destruct (keq d k); simpl; [f_equal; f_equal; lia|].
    rewrite IH. destruct (index_of k ds); simpl; [|reflexivity]. f_equal. f_equal. lia.
  Qed.

  Lemma index_of_some k ds j : index_of k ds = Some j -> nth_error ds j = Some k.
  Proof.
    revert j. induction ds as [|d ds IH]; intros j H; simpl in H; [discriminate|].
    destruct (keq d k) eqn:E.
    - injection H as <-. apply keq_ok in E as ->. reflexivity.
    - destruct (index_of k ds) eqn:I; [|discriminate]. injection H as <-. simpl. now apply IH.
  Qed.

  Lemma index_of_none k ds : index_of k ds = None <-> ~ In k ds.
  Proof.
    induction ds as [|d ds IH]; simpl; [easy|]. destruct (keq d k) eqn:E.
    - apply keq_ok in E as ->. split; [discriminate|tauto].
    - destruct (index_of k ds) eqn:I; simpl.
      + split; [discriminate|]. intro H. exfalso. apply H. right.
        apply index_of_some in I. eapply nth_error_In. exact I.
      + split; [|reflexivity]. intros _ [->|X]; [|apply (proj1 IH eq_refl X)].
        assert (keq k k = true) by now apply keq_ok. congruence.
  Qed.

  Lemma existsb_keq k seen : existsb (keq k) seen = true <-> In k seen.
  Proof.
    rewrite existsb_exists. split.
    - intros (x & H & E). apply keq_ok in E as ->. assumption.
    - intro H. exists k. split; [assumption|]. now apply keq_ok.
  Qed.

  Lemma acc_get_ok m ds k : acc_state m ds ->
    exists m' j, acc_get keq vt m k = (m', wrap vt (Z.of_nat j))
      /\ acc_state m' (distinct_after ds [k]) /\ nth_error (distinct_after ds [k]) j = Some k.
  Proof.
    intros (R & I & N). unfold acc_get, a_insert. rewrite R, numbered_length.
    rewrite (find_numbered k ds 0). simpl distinct_after.
    destruct (index_of k ds) as [j|] eqn:X; simpl option_map; cbv iota beta.
    - rewrite (find_numbered k ds 0), X. simpl.
      assert (In k ds) by (apply index_of_some in X; eapply nth_error_In; exact X).
      rewrite (proj2 (existsb_keq k ds)) by assumption.
      eexists _, j. split; [reflexivity|]. split; [|now apply index_of_some].
      unfold acc_state. simpl. auto.
    - assert (~ In k ds) as NI by now apply index_of_none.
      assert (existsb (keq k) ds = false) as ->.
      { destruct (existsb (keq k) ds) eqn:E; [|reflexivity]. apply existsb_keq in E. contradiction. }
      assert (EQ : numbered 0 ds ++ [(k, wrap vt (Z.of_nat (length ds)))] = numbered 0 (ds ++ [k])).
      { rewrite numbered_app. simpl. reflexivity. }
      rewrite EQ, find_numbered.
      assert (XI : index_of k (ds ++ [k]) = Some (length ds)).
      { clear - X keq_ok. induction ds as [|d ds IH]; simpl in *.
        - assert (keq k k = true) as -> by now apply keq_ok. reflexivity.
        - destruct (keq d k); [discriminate|]. destruct (index_of k ds); [discriminate|].
          now rewrite IH. }
      rewrite XI. cbn [option_map].
      eexists _, (length ds). split; [reflexivity|]. split.
      + unfold acc_state. cbn [acc_range acc_inverse]. rewrite I. split; [reflexivity|]. split; [reflexivity|].
        assert (P : NoDup (rev (ds ++ [k]))).
        { rewrite rev_app_distr. simpl. constructor; [now rewrite <- in_rev|]. now apply NoDup_rev. }
        apply NoDup_rev in P. now rewrite rev_involutive in P.
      + rewrite nth_error_app2, Nat.sub_diag by lia. reflexivity.
  Qed.

  Lemma distinct_after_app : forall a seen b,
    distinct_after seen (a ++ b) = distinct_after (distinct_after seen a) b.
  Proof.
    induction a as [|k a IH]; intros seen b; simpl; [reflexivity|].
    destruct (existsb (keq k) seen); apply IH.
  Qed.

  Lemma distinct_after_prefix : forall ks seen, exists t, distinct_after seen ks = seen ++ t.
  Proof.
    induction ks as [|k ks IH]; intro seen; simpl.
    - exists []. now rewrite app_nil_r.
    - destruct (existsb (keq k) seen); [apply IH|].
      destruct (IH (seen ++ [k])) as (t & E). exists (k :: t). rewrite E, <- app_assoc. reflexivity.
  Qed.

  (** After any history: each result is the position of its key among the
      distinct keys of the whole history. *)
  Lemma acc_run_ok : forall ks m ds, acc_state m ds ->
    exists m' js, acc_run keq vt m ks = (m', map (fun j => wrap vt (Z.of_nat j)) js)
      /\ acc_state m' (distinct_after ds ks)
      /\ Forall2 (fun k j => nth_error (distinct_after ds ks) j = Some k) ks js.
  Proof.
    induction ks as [|k ks IH]; intros m ds H.
    - exists m, []. split; [reflexivity|]. split; [exact H|constructor].
    - cbn [acc_run]. destruct (acc_get_ok m ds k H) as (m1 & j & E & S1 & N1).
      rewrite E. destruct (IH m1 _ S1) as (m2 & js & E2 & S2 & F).
      rewrite E2. exists m2, (j :: js). split; [reflexivity|].
      rewrite <- distinct_after_app in S2, F. simpl app in S2, F.
      split; [exact S2|]. constructor; [|exact F].
      change (k :: ks) with ([k] ++ ks). rewrite distinct_after_app.
      destruct (distinct_after_prefix ks (distinct_after ds [k])) as (t & ->).
      rewrite nth_error_app1; [exact N1|]. apply nth_error_Some. congruence.
  Qed.

  Lemma distinct_after_in : forall ks seen x, In x (distinct_after seen ks) <-> In x seen \/ In x ks.
  Proof.
    induction ks as [|k ks IH]; intros seen x; simpl; [tauto|].
    destruct (existsb (keq k) seen) eqn:E; rewrite IH.
    - apply existsb_keq in E. split; [tauto|]. intros [?|[<-|?]]; tauto.
    - rewrite in_app_iff. simpl. tauto.
  Qed.

  Lemma acc_invert_ok m ds j k : acc_state m ds -> nth_error ds j = Some k ->
    Z.of_nat (length ds) <= ihigh vt -> Z.of_nat (length ds) <= 2 ^ 64 -> ilow vt <= 0 ->
    acc_invert m (wrap vt (Z.of_nat j)) = Ok k.
  Proof.
    intros (R & I & N) H B S L.
    assert (Hj : (j < length ds)%nat) by (apply nth_error_Some; congruence).
    rewrite wrap_id; [|assumption|unfold in_ity; lia].
    unfold acc_invert. rewrite wrap_id; [|reflexivity|].
    2:{ unfold in_ity, ilow, ihigh, size_type, uint64. simpl sgn. simpl bits. cbv iota. lia. }
    rewrite I. rewrite (proj2 (Z.ltb_lt _ _)) by lia. rewrite Nat2Z.id, H. reflexivity.
  Qed.
End Accounting.

(** ** Composite map *)
Record map_laws {S K V} (m : pmap S K V) : Prop := {
  ml_same : forall s k v, pm_get m (pm_put m s k v) k = v;
  ml_other : forall s k k' v, k <> k' -> pm_get m (pm_put m s k v) k' = pm_get m s k'
}.

Definition inv_laws {S K V} (m : pmap S K V) : Prop :=
  forall s k, pm_invert m s (pm_get m s k) = k.
Definition inv_laws_r {S K V} (m : pmap S K V) : Prop :=
  forall s v, pm_get m s (pm_invert m s v) = v.

(** ** Shift map *)
Lemma shift_wrapped kt vt o k : 0 < bits kt -> bits kt <= 16 \/ 32 <= bits kt -> bits kt <= bits vt ->
  in_ity kt k -> in_ity kt o ->
  (sgn kt = true -> 32 <= bits kt -> in_ity kt (k - o)) ->
  exists v, shift_get kt vt o k = Ok v /\ in_ity vt v /\ shift_invert kt vt o v = Ok k.
Proof.
  intros Hb Hw16 Hv Hk Ho Hs. unfold shift_get.
  set (p := promote kt).
  assert (Hp : 0 < bits p) by (unfold p, promote; destruct (bits kt <? 32); simpl; lia).
  (* the subtraction is defined and congruent to k - o modulo 2^bits kt *)
  assert (D : exists d, iarith p (k - o) = Ok d /\ d mod 2 ^ bits kt = (k - o) mod 2 ^ bits kt).
  { destruct (in_ityb p (k - o)) eqn:E.
    - apply in_ityb_spec in E. exists (k - o). split; [now apply iarith_in|reflexivity].
    - assert (~ in_ity p (k - o)) as NI by (rewrite <- in_ityb_spec; congruence).
      unfold p, promote in *. destruct (Z.ltb_spec (bits kt) 32) as [L|L].
      + exfalso. apply NI.
        pose proof (Z.pow_le_mono_r 2 (bits kt) 31 ltac:(lia) ltac:(lia)).
        unfold in_ity in *. rewrite ity_span in Hk, Ho by assumption.
        unfold in_ity, ilow, ihigh, int32. simpl sgn. simpl bits. cbv iota.
        change (32 - 1) with 31. lia.
      + destruct (sgn kt) eqn:S; [exfalso; auto|].
        exists (wrap kt (k - o)). split; [now apply iarith_unsigned|]. now apply wrap_mod. }
  destruct D as (d & E & Hd). rewrite E. cbn [bind].
  eexists. split; [reflexivity|]. split; [apply wrap_in; lia|].
  unfold shift_invert.
  assert (W : wrap kt (wrap vt d) = wrap kt (k - o)).
  { apply wrap_congr; [assumption|].
    assert (DV : (2 ^ bits kt | 2 ^ bits vt)).
    { exists (2 ^ (bits vt - bits kt)). rewrite <- Z.pow_add_r by lia. f_equal. lia. }
    assert (P : 0 < 2 ^ bits kt) by (apply Z.pow_pos_nonneg; lia).
    rewrite (Znumtheory.Zmod_div_mod (2 ^ bits kt) (2 ^ bits vt) (wrap vt d));
      [|assumption|apply Z.pow_pos_nonneg; lia|assumption].
    rewrite wrap_mod by lia.
    rewrite <- Znumtheory.Zmod_div_mod; [assumption|assumption|apply Z.pow_pos_nonneg; lia|assumption]. }
  rewrite W. fold p.
  (* the sum *)
  assert (S : exists s, iarith p (wrap kt (k - o) + o) = Ok s
              /\ s mod 2 ^ bits kt = (wrap kt (k - o) + o) mod 2 ^ bits kt).
  { destruct (in_ityb p (wrap kt (k - o) + o)) eqn:X.
    - apply in_ityb_spec in X. eexists. split; [now apply iarith_in|reflexivity].
    - assert (~ in_ity p (wrap kt (k - o) + o)) as NI by (rewrite <- in_ityb_spec; congruence).
      unfold p, promote in *. destruct (Z.ltb_spec (bits kt) 32) as [L|L].
      + exfalso. apply NI. pose proof (wrap_in kt (k - o) Hb) as Hw.
        pose proof (Z.pow_le_mono_r 2 (bits kt) 31 ltac:(lia) ltac:(lia)).
        pose proof (Z.pow_le_mono_r 2 (bits kt - 1) 30 ltac:(lia) ltac:(lia)).
        unfold in_ity, ilow, ihigh in Hw, Ho.
        unfold in_ity, ilow, ihigh, int32. simpl sgn. simpl bits. cbv iota.
        change (32 - 1) with 31. change (2 ^ 31) with (2 * 2 ^ 30) in *.
        destruct (sgn kt); [lia|].
        assert (2 ^ bits kt <= 2 ^ 16) by (apply Z.pow_le_mono_r; lia).
        change (2 ^ 30) with (2 ^ 14 * 2 ^ 16). lia.
      + destruct (sgn kt) eqn:Sg.
        * exfalso. apply NI. rewrite wrap_id by auto. now replace (k - o + o) with k by lia.
        * eexists. split; [now apply iarith_unsigned|]. now apply wrap_mod. }
  destruct S as (s & E2 & Hs2). rewrite E2. cbn [bind]. f_equal.
  rewrite <- (wrap_id kt k) by assumption. apply wrap_congr; [assumption|].
  rewrite Hs2, Zplus_mod, wrap_mod, <- Zplus_mod by assumption. f_equal. lia.
Qed.
