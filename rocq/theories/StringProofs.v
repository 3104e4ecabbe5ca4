(** Proofs about split and trim (C13 - C15). *)
From Coq Require Import ZArith List Bool Lia PeanoNat Sorted.
From Verif Require Import Outcome StringModel.
Import ListNotations.
Local Open Scope Z_scope.

(** ** Specification of splitting *)

(** All fields between delimiters, at least one; by recursion from the right,
    independent of the loop. *)
Fixpoint fields (d : Z -> bool) (s : str) : list str :=
  match s with
  | [] => [[]]
  | c :: s =>
      if d c then [] :: fields d s
      else match fields d s with
           | [] => [[c]]
           | f :: fs => (c :: f) :: fs
           end
  end.

(** The delimiters of a string, in order. *)
Definition delims (d : Z -> bool) (s : str) : str := filter d s.

(** Interleave fields with delimiters. *)
Fixpoint weave (fs : list str) (ds : str) : str :=
  match fs, ds with
  | [], _ => []
  | [f], _ => f
  | f :: fs, x :: ds => f ++ x :: weave fs ds
  | f :: fs, [] => f ++ weave fs []
  end.

(** Join with one delimiter character. *)
Fixpoint join (x : Z) (fs : list str) : str :=
  match fs with
  | [] => []
  | [f] => f
  | f :: fs => f ++ x :: join x fs
  end.

Definition no_delim (d : Z -> bool) (f : str) : Prop := forallb (fun c => negb (d c)) f = true.

Section Split.
  Variable d : Z -> bool.

  Lemma fields_nonempty s : fields d s <> [].
  Proof. destruct s as [|c s]; simpl; [easy|]. destruct (d c); [easy|]. destruct (fields d s); easy. Qed.

  (** What the loop computes from a state, compared with [fields]. *)
  Definition prepend (b : str) (fs : list str) : list str :=
    match fs with [] => [b] | f :: fs => (b ++ f) :: fs end.

  Lemma split_loop_keep : forall s init back,
    let (i, b) := fold_left (split_step d false) s (init, back) in
    i ++ [b] = init ++ prepend back (fields d s).
  Proof.
    induction s as [|c s IH]; intros init back; cbn [fold_left fields].
    - simpl. now rewrite app_nil_r.
    - unfold split_step at 2. destruct (d c) eqn:E; simpl negb; cbv iota; cbn [orb].
      + specialize (IH (init ++ [back]) []).
        destruct (fold_left _ s _) as [i b]. rewrite IH. simpl prepend.
        rewrite app_nil_r, <- app_assoc. simpl.
        pose proof (fields_nonempty s). destruct (fields d s); [easy|reflexivity].
      + specialize (IH init (back ++ [c])).
        destruct (fold_left _ s _) as [i b]. rewrite IH.
        pose proof (fields_nonempty s). destruct (fields d s); [easy|].
        simpl. now rewrite <- app_assoc.
  Qed.

  Lemma fields_length s : length (fields d s) = S (length (delims d s)).
  Proof.
    induction s as [|c s IH]; simpl; [reflexivity|].
    destruct (d c); simpl; [now rewrite IH|].
    pose proof (fields_nonempty s). destruct (fields d s); [easy|]. simpl in *. lia.
  Qed.

  Lemma fields_nil_iff s : (length (fields d s) = 1%nat /\ hd [1] (fields d s) = []) <-> s = [].
  Proof.
    split; [|intros ->; auto].
    destruct s as [|c s]; [easy|]. simpl. intros [L H].
    pose proof (fields_nonempty s). destruct (d c); simpl in *.
    - destruct (fields d s); simpl in *; [easy|lia].
    - destruct (fields d s); simpl in *; easy.
  Qed.

  Lemma split_keep s : split d false s = match s with [] => [] | _ => fields d s end.
  Proof.
    unfold split. pose proof (split_loop_keep s [] []) as H.
    destruct (fold_left (split_step d false) s ([], [])) as [i b] eqn:FL. unfold str in *. rewrite FL in H.
    assert (P : prepend [] (fields d s) = fields d s).
    { pose proof (fields_nonempty s). destruct (fields d s); easy. }
    rewrite P in H. simpl in H. simpl orb.
    destruct (Nat.eqb (length (i ++ [b])) 1 && is_nil b) eqn:E.
    - apply andb_true_iff in E as [E1 E2]. apply Nat.eqb_eq in E1.
      destruct b; [|discriminate]. destruct i; [|rewrite app_length in E1; simpl in E1; lia].
      simpl in *. assert (s = []) as ->; [|reflexivity].
      apply fields_nil_iff. now rewrite <- H.
    - destruct s; [|exact H]. simpl in H.
      destruct i as [|? i]; [|destruct i; discriminate]. injection H as ->. discriminate.
  Qed.

  Lemma fields_no_delim s : Forall (no_delim d) (fields d s).
  Proof.
    induction s as [|c s IH]; simpl; [repeat constructor|].
    destruct (d c) eqn:E; [constructor; [reflexivity|assumption]|].
    destruct (fields d s); [repeat constructor; unfold no_delim; simpl; now rewrite E|].
    inversion IH; subst. constructor; [|assumption].
    unfold no_delim in *. simpl. now rewrite E.
  Qed.

  Lemma weave_fields s : weave (fields d s) (delims d s) = s.
  Proof.
    induction s as [|c s IH]; simpl; [reflexivity|].
    pose proof (fields_nonempty s). pose proof (fields_length s) as L.
    destruct (d c) eqn:E; destruct (fields d s) as [|f fs] eqn:F; try easy.
    - change (c :: weave (f :: fs) (delims d s) = c :: s). now rewrite IH.
    - destruct fs as [|g fs].
      + simpl in *. now rewrite IH.
      + destruct (delims d s) as [|x ds]; [simpl in L; lia|].
        change (c :: (f ++ x :: weave (g :: fs) ds) = c :: s).
        change (f ++ x :: weave (g :: fs) ds = s) in IH. now rewrite IH.
  Qed.

  (** ** Removing empty fields *)

  Definition nonempty (f : str) : bool := negb (is_nil f).

  Lemma split_loop_remove : forall s init back,
    Forall (fun f => nonempty f = true) init ->
    let (i, b) := fold_left (split_step d true) s (init, back) in
    (if is_nil b then i else i ++ [b])
    = init ++ filter nonempty (prepend back (fields d s)).
  Proof.
    induction s as [|c s IH]; intros init back Hi; cbn [fold_left fields].
    - simpl. rewrite app_nil_r. destruct back; simpl; [now rewrite app_nil_r|reflexivity].
    - unfold split_step at 2. destruct (d c) eqn:E; simpl negb; cbv iota; cbn [orb].
      + pose proof (fields_nonempty s).
        destruct (is_nil back) eqn:B; simpl negb; cbv iota.
        * destruct back; [|discriminate].
          specialize (IH init [] Hi). destruct (fold_left _ s _) as [i b]. rewrite IH.
          simpl. destruct (fields d s); [easy|]. reflexivity.
        * specialize (IH (init ++ [back]) []).
          destruct (fold_left _ s _) as [i b]. rewrite IH.
          -- simpl prepend. rewrite <- app_assoc. f_equal. rewrite app_nil_r.
             simpl. unfold nonempty at 2. rewrite B. simpl.
             destruct (fields d s); [easy|]. reflexivity.
          -- apply Forall_app. split; [assumption|]. constructor; [|constructor].
             unfold nonempty. now rewrite B.
      + specialize (IH init (back ++ [c]) Hi).
        destruct (fold_left _ s _) as [i b]. rewrite IH.
        pose proof (fields_nonempty s). destruct (fields d s); [easy|].
        simpl. now rewrite <- app_assoc.
  Qed.

  Lemma split_remove s : split d true s = filter nonempty (fields d s).
  Proof.
    unfold split. pose proof (split_loop_remove s [] [] (Forall_nil _)) as H.
    destruct (fold_left (split_step d true) s ([], [])) as [i b] eqn:FL. unfold str in *. rewrite FL in H.
    simpl in H. simpl orb. cbn [andb]. rewrite H.
    pose proof (fields_nonempty s). destruct (fields d s); easy.
  Qed.
End Split.

(** Join of the fields with the only delimiter character. *)
Lemma join_weave x fs : join x fs = weave fs (repeat x (length fs - 1)).
Proof.
  induction fs as [|f fs IH]; [reflexivity|].
  destruct fs as [|g fs]; [reflexivity|].
  change (join x (f :: g :: fs)) with (f ++ x :: join x (g :: fs)). rewrite IH.
  cbn [length]. replace (S (S (length fs)) - 1)%nat with (S (length fs)) by lia.
  cbn [repeat]. replace (S (length fs) - 1)%nat with (length fs) by lia. reflexivity.
Qed.

Lemma delims_char x s : delims (fun c => c =? x) s = repeat x (length (delims (fun c => c =? x) s)).
Proof.
  induction s as [|c s IH]; simpl; [reflexivity|].
  destruct (Z.eqb_spec c x) as [->|]; [|assumption]. simpl. now rewrite <- IH.
Qed.

Lemma join_fields x s : join x (fields (fun c => c =? x) s) = s.
Proof.
  rewrite join_weave, fields_length. cbn [Nat.sub]. rewrite Nat.sub_0_r.
  rewrite <- delims_char. apply weave_fields.
Qed.

(** ** Maximal runs *)

(** [run d s pre f post]: [f] is a maximal non-empty delimiter-free substring
    of [s] occurring at position [length pre]. *)
Definition run (d : Z -> bool) (s pre f post : str) : Prop :=
  s = pre ++ f ++ post /\ f <> [] /\ no_delim d f
  /\ (forall p c, pre = p ++ [c] -> d c = true)
  /\ (forall c q, post = c :: q -> d c = true).

(** Positions of the non-empty fields, with their start offset. *)
Fixpoint positions (k : nat) (fs : list str) : list (nat * str) :=
  match fs with
  | [] => []
  | f :: fs => (k, f) :: positions (k + length f + 1) fs
  end.

(** The runs of a string in order of position, defined by maximality only. *)
Definition runs_at (d : Z -> bool) (s : str) (k : nat) (f : str) : Prop :=
  exists pre post, length pre = k /\ run d s pre f post.

Lemma positions_shift : forall fs k j,
  positions (k + j) fs = map (fun p => (fst p + j, snd p)%nat) (positions k fs).
Proof.
  induction fs as [|f fs IH]; intros k j; simpl; [reflexivity|].
  f_equal. rewrite <- IH. f_equal. lia.
Qed.

Lemma no_delim_app d a b : no_delim d (a ++ b) <-> no_delim d a /\ no_delim d b.
Proof. unfold no_delim. rewrite forallb_app. apply andb_true_iff. Qed.

Lemma no_delim_cons d c f : no_delim d (c :: f) <-> d c = false /\ no_delim d f.
Proof. unfold no_delim. simpl. rewrite andb_true_iff, negb_true_iff. reflexivity. Qed.

(** Every maximal run is a field at the right offset, and conversely. *)
Lemma positions_runs d s : forall k f,
  (In (k, f) (positions 0 (fields d s)) /\ f <> []) <-> runs_at d s k f.
Proof.
  induction s as [|c s IH]; intros k f.
  - simpl. split.
    + intros [[H|[]] N]. injection H as <- <-. congruence.
    + intros (pre & post & _ & E & N & _). exfalso.
      symmetry in E. apply app_eq_nil in E as [_ E]. apply app_eq_nil in E as [E _]. easy.
  - cbn [fields]. pose proof (fields_nonempty d s) as NE.
    destruct (d c) eqn:Dc.
    + (* delimiter: everything shifts by one *)
      cbn [positions length]. change (0 + 0 + 1)%nat with (0 + 1)%nat.
      rewrite positions_shift.
      split.
      * intros [[H|H] N]; [injection H as <- <-; congruence|].
        apply in_map_iff in H as ([k' f'] & H & Hin). simpl in H. injection H as <- <-.
        destruct (proj1 (IH k' f') (conj Hin N)) as (pre & post & L & E & Nf & F & P & Q).
        exists (c :: pre), post. split; [simpl; lia|].
        split; [simpl; now rewrite E|]. split; [assumption|]. split; [assumption|].
        split; [|assumption]. intros p x Hp. destruct p as [|y p].
        -- simpl in Hp. injection Hp as -> _. assumption.
        -- injection Hp as _ Hp. eapply P. exact Hp.
      * intros (pre & post & L & E & Nf & F & P & Q). split; [|assumption]. right.
        destruct pre as [|y pre].
        -- destruct f as [|y f]; [easy|]. injection E as <- _.
           apply no_delim_cons in F as [F _]. congruence.
        -- injection E as <- E. apply in_map_iff. exists (length pre, f). simpl.
           split; [simpl in L; f_equal; lia|].
           apply (proj2 (IH (length pre) f)).
           exists pre, post. split; [reflexivity|]. repeat split; try assumption.
           intros p x Hp. apply (P (c :: p) x). simpl. now rewrite Hp.
    + destruct (fields d s) as [|g gs] eqn:G; [easy|].
      cbn [positions length] in *.
      replace (0 + S (length g) + 1)%nat with ((0 + length g + 1) + 1)%nat by lia.
      rewrite positions_shift.
      assert (Hg : no_delim d g).
      { pose proof (fields_no_delim d s) as X. rewrite G in X. now inversion X. }
      (* shape of s: starts with g *)
      assert (Sg : exists post, s = g ++ post /\ forall y q, post = y :: q -> d y = true).
      { clear - G Dc. revert g gs G. induction s as [|y s IHs]; intros g gs G; simpl in G.
        - injection G as <- <-. exists []. easy.
        - destruct (d y) eqn:Dy.
          + injection G as <- <-. exists (y :: s). split; [reflexivity|]. intros ? ? E. injection E as <- _. assumption.
          + destruct (fields d s) as [|h hs] eqn:H; [now destruct (fields_nonempty d s)|].
            injection G as <- <-. destruct (IHs h hs eq_refl) as (post & -> & Q).
            exists post. easy. }
      destruct Sg as (post0 & Es & Qs).
      split.
      * intros [[H|H] N].
        -- injection H as <- <-. exists [], post0. split; [reflexivity|].
           split; [simpl; now rewrite Es|]. split; [easy|].
           split; [apply no_delim_cons; auto|]. split; [|assumption].
           intros p x Hp. destruct p; discriminate.
        -- apply in_map_iff in H as ([k' f'] & H & Hin). simpl in H. injection H as <- <-.
           assert (Hk' : (length g + 1 <= k')%nat).
           { clear - Hin. replace (0 + length g + 1)%nat with (0 + (length g + 1))%nat in Hin by lia.
             rewrite positions_shift in Hin. apply in_map_iff in Hin as ([a b] & H & _).
             simpl in H. injection H as <- _. lia. }
           destruct (proj1 (IH k' f') (conj (or_intror Hin) N)) as (pre & post & L & E & Nf & F & P & Q).
           exists (c :: pre), post. split; [simpl; lia|].
           split; [simpl; now rewrite E|]. split; [assumption|]. split; [assumption|].
           split; [|assumption]. intros p x Hp. destruct p as [|y p].
           ++ injection Hp as _ Hp. subst pre. simpl in L. lia.
           ++ injection Hp as _ Hp. eapply P. exact Hp.
      * intros (pre & post & L & E & Nf & F & P & Q). split; [|assumption].
        destruct pre as [|y pre].
        -- left. destruct f as [|y f]; [easy|]. injection E as <- E. simpl in L. subst k. f_equal. f_equal.
           (* both g and f are maximal prefixes *)
           apply no_delim_cons in F as [_ F]. rewrite Es in E. clear - E Hg F Q Qs.
           revert f Hg F E. induction g as [|a g IHg]; intros f Hg F E.
           ++ destruct f as [|b f]; [reflexivity|]. simpl in E. specialize (Qs _ _ E).
              apply no_delim_cons in F as [F _]. congruence.
           ++ destruct f as [|b f].
              ** simpl in E. symmetry in E. specialize (Q _ _ E).
                 apply no_delim_cons in Hg as [Hg _]. congruence.
              ** injection E as -> E. f_equal. apply no_delim_cons in Hg as [_ Hg].
                 apply no_delim_cons in F as [_ F]. now apply IHg.
        -- injection E as <- E. destruct pre as [|z pre].
           { exfalso. specialize (P [] c eq_refl). congruence. }
           right. apply in_map_iff. exists (S (length pre), f). simpl.
           split; [simpl in L; f_equal; lia|].
           assert (R : runs_at d s (length (z :: pre)) f).
           { exists (z :: pre), post. split; [reflexivity|]. repeat split; try assumption.
             intros p x Hp. apply (P (c :: p) x). simpl. now rewrite Hp. }
           apply IH in R as [[R|R] _]; [simpl in R; discriminate|exact R].
Qed.

(** ** Trim *)

Section Trim.
  Variables f g : Z -> bool.

  Fixpoint drop_prefix (p : Z -> bool) (s : str) : str :=
    match s with
    | [] => []
    | c :: s' => if p c then drop_prefix p s' else s
    end.

  Lemma trim_left_ok : forall fuel (s : str) l,
    (l <= length s)%nat -> (length s - l <= fuel)%nat ->
    exists l', trim_left f fuel s l (length s) = Ok l' /\ (l <= l' <= length s)%nat
      /\ (forall i c, (l <= i < l')%nat -> nth_error s i = Some c -> f c = true)
      /\ (forall c, nth_error s l' = Some c -> f c = false).
  Proof.
    induction fuel as [|fuel IH]; intros s l Hl Hf; cbn [trim_left];
      destruct (Nat.eqb_spec l (length s)) as [E|E].
    - exists l. repeat split; try lia. intros c Hc.
      assert (nth_error s l = None) by (apply nth_error_None; lia). congruence.
    - lia.
    - exists l. repeat split; try lia. intros c Hc.
      assert (nth_error s l = None) by (apply nth_error_None; lia). congruence.
    - destruct (nth_error s l) as [c|] eqn:N; [|apply nth_error_None in N; lia].
      destruct (f c) eqn:F.
      + destruct (IH s (S l)) as (l' & A & B & C & D); [lia|lia|].
        exists l'. split; [exact A|]. split; [lia|]. split; [|assumption].
        intros i x Hi Hx. destruct (Nat.eq_dec i l) as [->|]; [congruence|].
        apply (C i); [lia|assumption].
      + exists l. repeat split; try lia. intros x Hx. congruence.
  Qed.

  Lemma trim_right_ok : forall fuel (s : str) l r,
    (l <= r <= length s)%nat -> (r - l <= fuel)%nat ->
    exists r', trim_right g fuel s l r = Ok r' /\ (l <= r' <= r)%nat
      /\ (forall i c, (r' <= i < r)%nat -> nth_error s i = Some c -> g c = true)
      /\ (l < r' -> forall c, nth_error s (r' - 1) = Some c -> g c = false)%nat.
  Proof.
    induction fuel as [|fuel IH]; intros s l r Hl Hf; cbn [trim_right];
      destruct (Nat.eqb_spec l r) as [E|E].
    - exists r. repeat split; lia.
    - lia.
    - exists r. repeat split; lia.
    - destruct (nth_error s (r - 1)) as [c|] eqn:N; [|apply nth_error_None in N; lia].
      destruct (g c) eqn:G.
      + destruct (IH s l (r - 1)%nat) as (r' & A & B & C & D); [lia|lia|].
        exists r'. split; [exact A|]. split; [lia|]. split; [|assumption].
        intros i x Hi Hx. destruct (Nat.eq_dec i (r - 1)) as [->|]; [congruence|].
        apply (C i); [lia|assumption].
      + exists r. repeat split; try lia. intros _ x Hx. congruence.
  Qed.

  Lemma forall_nth_prefix (p : Z -> bool) s n :
    (forall i c, (i < n)%nat -> nth_error s i = Some c -> p c = true) ->
    forallb p (firstn n s) = true.
  Proof.
    revert s. induction n; intros s H; [reflexivity|]. destruct s as [|x s]; [reflexivity|].
    simpl. apply andb_true_iff. split; [apply (H 0%nat); [lia|reflexivity]|].
    apply IHn. intros i c Hi Hc. apply (H (S i)); [lia|assumption].
  Qed.

  Lemma trim_ok s : exists p t q,
    trim f g s = Ok t /\ s = p ++ t ++ q
    /\ forallb f p = true /\ forallb g q = true
    /\ (forall c u, t = c :: u -> f c = false)
    /\ (forall c u, t = u ++ [c] -> g c = false).
  Proof.
    destruct (trim_left_ok (length s) s 0) as (l & A & B & C & D); [lia|lia|].
    destruct (trim_right_ok (length s) s l (length s)) as (r & A' & B' & C' & D'); [lia|lia|].
    exists (firstn l s), (firstn (r - l) (skipn l s)), (skipn (r - l) (skipn l s)).
    unfold trim. rewrite A. cbn [bind]. rewrite A'. cbn [bind].
    split; [reflexivity|]. split; [now rewrite firstn_skipn, firstn_skipn|].
    split; [apply forall_nth_prefix; intros i c Hi; apply C; lia|].
    assert (SK : forall n (x : str) i, nth_error (skipn n x) i = nth_error x (n + i)).
    { induction n; intros x i; [reflexivity|]. destruct x; simpl; [now destruct i|]. apply IHn. }
    split.
    { rewrite <- (firstn_all (skipn (r - l) (skipn l s))). apply forall_nth_prefix.
      intros i c Hi Hc. rewrite !SK in Hc.
      assert (nth_error s (l + (r - l + i)) <> None) as X by congruence.
      apply nth_error_Some in X.
      apply (C' (l + (r - l + i))%nat); [lia|assumption]. }
    assert (FN : forall n (x : str) i, (i < n)%nat -> nth_error (firstn n x) i = nth_error x i).
    { induction n; intros x i Hi; [lia|]. destruct x; simpl; [now destruct i|]. destruct i; [reflexivity|].
      simpl. apply IHn. lia. }
    split.
    - intros c u E. apply D.
      destruct (Nat.eq_dec (r - l) 0) as [Z0|Z0]; [rewrite Z0 in E; discriminate|].
      pose proof (FN (r - l)%nat (skipn l s) 0%nat ltac:(lia)) as X. rewrite E, SK in X.
      simpl in X. rewrite Nat.add_0_r in X. now symmetry.
    - intros c u E.
      destruct (Nat.eq_dec (r - l) 0) as [Z0|Z0]; [rewrite Z0 in E; destruct u; discriminate|].
      apply D'; [lia|].
      assert (Lu : (length u = r - l - 1)%nat).
      { apply (f_equal (@length Z)) in E. rewrite firstn_length, skipn_length, app_length in E.
        simpl in E. lia. }
      pose proof (FN (r - l)%nat (skipn l s) (r - l - 1)%nat ltac:(lia)) as X.
      rewrite E, SK, nth_error_app2, Lu, Nat.sub_diag in X by lia. simpl in X.
      replace (r - 1)%nat with (l + (r - l - 1))%nat by lia. now symmetry.
  Qed.
End Trim.

(** The decomposition is unique: trimming a string that is already trimmed
    changes nothing. *)
Lemma trim_fixpoint f g t :
  (forall c u, t = c :: u -> f c = false) ->
  (forall c u, t = u ++ [c] -> g c = false) -> trim f g t = Ok t.
Proof.
  intros Hf Hg. destruct (trim_ok f g t) as (p & t' & q & E & D & P & Q & F & G).
  rewrite E. f_equal. rewrite D in Hf, Hg.
  assert (p = []).
  { destruct p as [|c p]; [reflexivity|]. specialize (Hf c _ eq_refl).
    simpl in P. rewrite Hf in P. discriminate. }
  subst p. simpl in D.
  assert (q = []).
  { destruct q as [|c q] using rev_ind; [reflexivity|].
    exfalso. specialize (Hg c (t' ++ q)). rewrite forallb_app in Q. simpl in Q.
    rewrite Hg in Q; [rewrite andb_false_r in Q; discriminate|].
    simpl. now rewrite app_assoc. }
  subst q. rewrite app_nil_r in D. now symmetry.
Qed.

Lemma trim_idempotent f g s t : trim f g s = Ok t -> trim f g t = Ok t.
Proof.
  intro H. destruct (trim_ok f g s) as (p & t' & q & E & D & P & Q & F & G).
  rewrite E in H. injection H as ->. now apply trim_fixpoint.
Qed.

(** Splitting a joined list of delimiter-free fields returns the fields. *)
Lemma fields_join x fs : fs <> [] -> Forall (no_delim (fun c => c =? x)) fs ->
  fields (fun c => c =? x) (join x fs) = fs.
Proof.
  assert (P : forall f s, no_delim (fun c => c =? x) f ->
    fields (fun c => c =? x) (f ++ s) = prepend f (fields (fun c => c =? x) s)).
  { induction f as [|c f IH]; intros s N.
    - pose proof (fields_nonempty (fun c => c =? x) s). simpl.
      destruct (fields _ s); easy.
    - apply no_delim_cons in N as [E N]. cbn [app fields]. rewrite E, (IH s N).
      pose proof (fields_nonempty (fun c => c =? x) s). destruct (fields _ s); easy. }
  induction fs as [|f fs IH]; intros NE F; [easy|]. inversion F; subst.
  destruct fs as [|g fs].
  - change (join x [f]) with f. rewrite <- (app_nil_r f) at 1. rewrite P by assumption.
    simpl. now rewrite app_nil_r.
  - change (join x (f :: g :: fs)) with (f ++ x :: join x (g :: fs)).
    rewrite P by assumption. cbn [fields]. rewrite Z.eqb_refl.
    rewrite IH; [|easy|assumption]. simpl. now rewrite app_nil_r.
Qed.

(** The non-empty fields in order with their offsets. *)
Definition located (d : Z -> bool) (s : str) : list (nat * str) :=
  filter (fun p => nonempty (snd p)) (positions 0 (fields d s)).

Lemma positions_snd : forall fs k, map snd (positions k fs) = fs.
Proof. induction fs as [|f fs IH]; intros k; simpl; [reflexivity|]. now rewrite IH. Qed.

Lemma filter_map_snd (l : list (nat * str)) :
  map snd (filter (fun p => nonempty (snd p)) l) = filter nonempty (map snd l).
Proof.
  induction l as [|p l IH]; simpl; [reflexivity|].
  destruct (nonempty (snd p)); simpl; now rewrite IH.
Qed.

Lemma located_split d s : map snd (located d s) = split d true s.
Proof. unfold located. now rewrite filter_map_snd, positions_snd, split_remove. Qed.

Lemma located_in d s k f : In (k, f) (located d s) <-> runs_at d s k f.
Proof.
  unfold located. rewrite filter_In, <- positions_runs. simpl.
  destruct f; simpl; intuition; congruence.
Qed.

Lemma positions_ge : forall fs k p, In p (positions k fs) -> (k <= fst p)%nat.
Proof.
  induction fs as [|f fs IH]; intros k p H; simpl in H; [easy|].
  destruct H as [<-|H]; [simpl; lia|]. apply IH in H. lia.
Qed.

Lemma positions_sorted : forall fs k,
  Sorted.StronglySorted (fun p q : nat * str => (fst p < fst q)%nat) (positions k fs).
Proof.
  induction fs as [|f fs IH]; intros k; simpl; constructor; [apply IH|].
  apply Forall_forall. intros p Hp. apply positions_ge in Hp. simpl. lia.
Qed.

Lemma located_sorted d s :
  Sorted.StronglySorted (fun p q : nat * str => (fst p < fst q)%nat) (located d s).
Proof.
  unfold located. generalize (positions_sorted (fields d s) 0).
  induction 1 as [|p l S IH F]; simpl; [constructor|].
  destruct (nonempty (snd p)); [|assumption]. constructor; [assumption|].
  apply Forall_forall. intros q Hq. apply filter_In in Hq as [Hq _].
  rewrite Forall_forall in F. now apply F.
Qed.
