(** C123: computations on types. *)
From Coq Require Import ZArith List Bool Lia.
From Verif Require Import RebindModel.
Import ListNotations.

Lemma ty_ind2 (P : ty -> Prop) : (forall n, P (Atom n)) -> (forall t n, P t -> P (Arr t n)) ->
  (forall c ts, (forall x, In x ts -> P x) -> P (App c ts)) -> forall t, P t.
Proof.
  intros A R C. fix IH 1. intros [n|t n|c ts].
  - apply A.
  - apply R, IH.
  - apply C. induction ts as [|y ts IL]; intros x I; [destruct I|]. destruct I as [<-|I]; [apply IH|now apply IL].
Qed.
Lemma same_spec a b : same a b = true <-> a = b.
Proof.
  revert b. induction a as [n|t n IH|c ts IH] using ty_ind2; intros [m|s m|d rs]; cbn [same]; try (split; discriminate).
  - rewrite Nat.eqb_eq. split; congruence.
  - rewrite andb_true_iff, IH, Nat.eqb_eq. split; [intros [-> ->]; reflexivity|intros E; injection E; auto].
  - rewrite andb_true_iff, Nat.eqb_eq. revert rs. induction ts as [|x ts IL]; intros [|y rs]; try (split; [intros [_ D]; discriminate|discriminate]).
    + split; [intros [-> _]; reflexivity|intros E; injection E as ->; auto].
    + rewrite andb_true_iff, IH by now left. specialize (IL (fun x I => IH x (or_intror I)) rs). split.
      * intros (C & -> & R). assert (E : App c ts = App d rs) by (apply IL; auto). congruence.
      * intros E. injection E as -> -> ->. split; auto. split; auto. now apply IL.
Qed.
Lemma same_refl a : same a a = true. Proof. now apply same_spec. Qed.
Lemma same_neq a b : a <> b -> same a b = false.
Proof. intros N. destruct (same a b) eqn:E; [|reflexivity]. apply same_spec in E. contradiction. Qed.

(** [u] is a part of [t]. *)
Inductive occurs (u : ty) : ty -> Prop :=
| occurs_here : occurs u u
| occurs_array t n : occurs u t -> occurs u (Arr t n)
| occurs_argument c ts x : In x ts -> occurs u x -> occurs u (App c ts).
Fixpoint size (t : ty) : nat := match t with Atom _ => 1 | Arr t _ => S (size t) | App _ ts => S (list_sum (map size ts)) end.
Lemma size_arg x ts : In x ts -> (size x <= list_sum (map size ts))%nat.
Proof.
  induction ts as [|y ts IH]; [intros []|]. change (list_sum (map size (y :: ts))) with (size y + list_sum (map size ts))%nat.
  intros [<-|I]; [lia|]. apply IH in I. lia.
Qed.
(** The types whose first parameter is replaced. *)
Definition rebindable (t : ty) : Prop :=
  match t with Atom _ => False | Arr _ _ => True | App c ts => ts <> [] /\ transparent c ts = false end.

Theorem C123_target : forall t u, rebindable t -> template_type (rebind t u) = u.
Proof. intros [n|t n|c [|s ts]] u H; cbn in *; try tauto. destruct H as [_ H]. cbn in H. now rewrite H. Qed.

(** Rebinding to the type already there changes nothing but comparators. *)
Definition no_comparators (t : ty) : Prop := forall c s, (c = 0 \/ c = 1)%nat -> ~ occurs (App c [s]) t.
Theorem C123_same : forall t, no_comparators t -> rebind t (template_type t) = t.
Proof.
  induction t as [n|t n IH|c ts IH] using ty_ind2; intros N; try reflexivity.
  destruct ts as [|s ts]; [reflexivity|]. cbn [rebind template_type].
  destruct (transparent c (s :: ts)) eqn:T.
  - exfalso. destruct ts; [|discriminate]. cbn in T. apply orb_true_iff in T. apply (N c s).
    + destruct T as [T|T]; apply Nat.eqb_eq in T; auto.
    + constructor.
  - f_equal. f_equal. rewrite <- (map_id ts) at 2. apply map_ext_in. intros x I.
    destruct (same x s) eqn:E; [apply same_spec in E; congruence|].
    destruct (same (template_type x) s) eqn:E2; [|reflexivity]. apply same_spec in E2. subst s. apply IH; [now right|].
    intros d r D O. apply (N d r D). apply occurs_argument with x; [now right|exact O].
Qed.

(** Rebinding twice: only the last target counts, if the first one is not a part of the type. *)
Lemma occurs_first s c ts : In s ts -> occurs s (App c ts). Proof. intros I. apply occurs_argument with s; auto. constructor. Qed.
Lemma rebind_size t u : rebindable t -> (size u < size (rebind t u))%nat.
Proof. intros R. destruct t as [n|t n|c [|s ts]]; cbn in R; try tauto; cbn; [lia|]. destruct R as [_ R]. rewrite R. cbn. lia. Qed.
Theorem C123_twice : forall t u w, ~ occurs u t -> u <> Void -> (forall c, u <> App c [Void]) -> rebind (rebind t u) w = rebind t w.
Proof.
  intros t u w. induction t as [n|t n IH|c ts IH] using ty_ind2; intros N V V2; try reflexivity.
  destruct ts as [|s ts]; [reflexivity|]. cbn [rebind]. destruct (transparent c (s :: ts)) eqn:T.
  - destruct ts; [|discriminate]. cbn in T. cbn. now rewrite T.
  - cbn [rebind].
    assert (T2 : forall v l, transparent c (v :: map l ts) = false) by (intros v l; destruct ts; [exact T|reflexivity]).
    rewrite T2. f_equal. f_equal. rewrite map_map. apply map_ext_in. intros x I.
    assert (Nx : ~ occurs u x) by (intros O; apply N; apply occurs_argument with x; [now right|exact O]).
    destruct (same x s) eqn:E; [now rewrite same_refl|].
    destruct (same (template_type x) s) eqn:E2.
    + assert (R : rebindable x \/ exists c, x = App c [template_type x] /\ transparent c [template_type x] = true \/ x = template_type x).
      { destruct x as [n|y n|d [|y ys]]; cbn.
        - right. exists 0%nat. now right.
        - now left.
        - right. exists 0%nat. now right.
        - destruct (transparent d (y :: ys)) eqn:D; [|left; split; [discriminate|exact D]].
          right. exists d. left. destruct ys; [|discriminate]. auto. }
      destruct R as [R|(d & [[R D]|R])].
      * rewrite same_neq by (intros F; pose proof (rebind_size x u R); rewrite F in *; lia).
        rewrite C123_target by exact R. rewrite same_refl. apply IH; auto. now right.
      * rewrite R. cbn [rebind]. rewrite D. rewrite (same_neq _ u).
        -- cbn [template_type]. rewrite same_neq by auto. reflexivity.
        -- intros F. now apply (V2 d).
      * rewrite <- R in E2. congruence.
    + rewrite same_neq by (intros ->; apply Nx; constructor). rewrite same_neq; [reflexivity|].
      intros F. apply Nx. rewrite <- F. destruct x as [n|y n|d [|y ys]]; cbn; try constructor; try constructor. apply occurs_first. now left.
Qed.

(** There and back again. *)
Theorem C123_back : forall t u, no_comparators t -> ~ occurs u t -> u <> Void -> (forall c, u <> App c [Void]) ->
  rebind (rebind t u) (template_type t) = t.
Proof. intros t u N O V V2. rewrite C123_twice by assumption. now apply C123_same. Qed.

(** Containers with a comparator and an allocator, which are numbered as templates by [v], 0 and [a]. *)
Lemma app_neq c s : App c [s] <> s.
Proof. intros E. apply (f_equal size) in E. cbn in E. lia. Qed.
Theorem C123_containers : forall v a s u, (2 <= a)%nat ->
  rebind (App v [s; App a [s]]) u = App v [u; App a [u]] /\
  rebind (App v [s; App 0 [s]; App a [s]]) u = App v [u; App 0 [Void]; App a [u]].
Proof.
  intros v a s u A. assert (R : rebind (App a [s]) u = App a [u]).
  { cbn. destruct a as [|[|a]]; [lia|lia|reflexivity]. }
  assert (K : forall c, (if same (App c [s]) s then u else if same (template_type (App c [s])) s then rebind (App c [s]) u else App c [s]) = rebind (App c [s]) u).
  { intros c. rewrite (same_neq (App _ [s]) s) by apply app_neq. cbn [template_type]. now rewrite same_refl. }
  split.
  - change (App v [u; if same (App a [s]) s then u else if same (template_type (App a [s])) s then rebind (App a [s]) u else App a [s]] = App v [u; App a [u]]).
    now rewrite K, R.
  - change (App v [u; if same (App 0 [s]) s then u else if same (template_type (App 0 [s])) s then rebind (App 0 [s]) u else App 0 [s];
      if same (App a [s]) s then u else if same (template_type (App a [s])) s then rebind (App a [s]) u else App a [s]] = App v [u; App 0 [Void]; App a [u]]).
    now rewrite !K, R.
Qed.
(** Finding: a map keeps an allocator for the old key, and values of the type of the keys are replaced too. *)
Theorem C123_map_refuted : forall m p a k u,
  rebind (App m [Atom k; Atom k; App 0 [Atom k]; App a [App p [Atom k; Atom k]]]) u =
  App m [u; u; App 0 [Void]; App a [App p [Atom k; Atom k]]].
Proof. intros m p a k u. cbn. now rewrite Nat.eqb_refl. Qed.

(** A container of nothing is the dummy one; otherwise the elements have the given type. *)
Theorem C123_of_none : forall c u, rebind_container none u = dummy_container /\ rebind_container c none = dummy_container /\
  (rebindable c -> u <> none -> template_type (rebind_container c u) = u).
Proof.
  intros c u. unfold rebind_container. rewrite same_refl, orb_true_r. split; [reflexivity|]. split; [reflexivity|].
  intros R N. rewrite (same_neq u none) by exact N. rewrite same_neq by (intros ->; exact R). now apply C123_target.
Qed.
Theorem C123_are_same : forall l, are_same l = true <-> l <> [] /\ forall x y, In x l -> In y l -> x = y.
Proof.
  intros [|t l]; [split; [discriminate|intros [N _]; now contradiction N]|].
  assert (H : are_same (t :: l) = true <-> forall x, In x l -> x = t).
  { cbn. induction l as [|u l IH]; [split; [intros _ x []|reflexivity]|]. rewrite andb_true_iff, same_spec, IH. split.
    - intros [<- H] x [<-|I]; auto.
    - intros H. split; [symmetry; apply H; now left|]. intros x I. apply H. now right. }
  rewrite H. split.
  - intros E. split; [discriminate|]. intros x y [<-|X] [<-|Y]; auto; try (symmetry; now apply E). rewrite (E x X). symmetry. now apply E.
  - intros [_ E] x I. apply E; [now right|now left].
Qed.
Theorem C123_is_one_of : forall t l, is_one_of t l = true <-> In t l.
Proof.
  intros t l. unfold is_one_of. rewrite existsb_exists. split.
  - intros (x & I & S). apply same_spec in S. now subst.
  - intros I. exists t. split; [exact I|apply same_refl].
Qed.
(** The strict common type: the only type that is not a constant; of constants, the first. *)
Theorem C123_strict_common : forall k t l c, strict_common k t l = Some c <->
  (In c (t :: l) /\ k c = false /\ forall x, In x (t :: l) -> k x = false -> x = c) \/
  (c = t /\ forall x, In x (t :: l) -> k x = true).
Proof.
  intros k t l c. revert t. induction l as [|u l IH]; intros t; cbn [strict_common].
  - split.
    + intros E. injection E as <-. destruct (k t) eqn:K; [right|left].
      * split; auto. intros x [<-|[]]; auto.
      * split; [now left|]. split; auto. intros x [<-|[]]; auto.
    + intros [([<-|[]] & _)|[-> _]]; reflexivity.
  - unfold strict_common2. destruct (k u) eqn:Ku.
    + rewrite IH. split.
      * intros [(I & K & H)|(-> & H)]; [left|right].
        -- split; [destruct I; [now left|right; now right]|]. split; auto. intros x [X|[<-|X]] Kx; [now apply H; [left|]|congruence|apply H; [now right|auto]].
        -- split; auto. intros x [X|[<-|X]]; auto; apply H; [now left|now right].
      * intros [(I & K & H)|(-> & H)]; [left|right].
        -- split; [destruct I as [I|[<-|I]]; [now left|congruence|now right]|]. split; auto. intros x [X|X] Kx; apply H; auto; [now left|right; now right].
        -- split; auto. intros x [X|X]; apply H; [now left|right; now right].
    + destruct (k t) eqn:Kt.
      * rewrite IH. split.
        -- intros [(I & K & H)|(-> & H)]; left.
           ++ split; [now right|]. split; auto. intros x [<-|X] Kx; [congruence|auto].
           ++ split; [right; now left|]. split; auto. intros x [<-|[<-|X]] Kx; auto; [congruence|]. rewrite H in Kx; [discriminate|now right].
        -- intros [(I & K & H)|(-> & H)].
           ++ left. split; [destruct I as [<-|I]; [congruence|exact I]|]. split; auto. intros x X Kx. apply H; auto. now right.
           ++ rewrite H in Ku; [discriminate|right; now left].
      * destruct (same t u) eqn:S.
        -- apply same_spec in S. subst u. rewrite IH. split.
           ++ intros [(I & K & H)|(-> & H)]; left.
              ** split; [now right|]. split; auto. intros x [<-|X] Kx; auto. apply H; auto. now left.
              ** rewrite H in Kt; [discriminate|now left].
           ++ intros [(I & K & H)|(-> & H)]; left.
              ** split; [destruct I as [I|I]; [now left|exact I]|]. split; auto. intros x X Kx. apply H; auto. now right.
              ** rewrite H in Kt; [discriminate|now left].
        -- split; [discriminate|]. intros [(I & K & H)|(-> & H)].
           ++ assert (t = c) by (apply H; auto; now left). assert (u = c) by (apply H; auto; right; now left).
              subst. now rewrite same_refl in S.
           ++ rewrite H in Kt; [discriminate|now left].
Qed.

(** vector is 2, allocator 3, map 4, pair 5; int is 3, float 4. *)
Example C123_case :
  rebind (App 2 [Atom 3; App 3 [Atom 3]]) (Atom 4) = App 2 [Atom 4; App 3 [Atom 4]] /\
  rebind (App 7 [Arr (Atom 3) 2; App 3 [Arr (Atom 3) 2]; Arr (Atom 3) 2; Atom 5]) (Atom 4) = App 7 [Atom 4; App 3 [Atom 4]; Atom 4; Atom 5] /\
  rebind (Arr (Atom 3) 2) (Atom 4) = Arr (Atom 4) 2 /\
  rebindable (App 2 [Atom 3; App 3 [Atom 3]]) /\ no_comparators (App 2 [Atom 3; App 3 [Atom 3]]) /\
  ~ occurs (Atom 4) (App 2 [Atom 3; App 3 [Atom 3]]) /\
  rebind_container (App 2 [Atom 3; App 3 [Atom 3]]) none = dummy_container /\
  are_same [Atom 3; Atom 3] = true /\ are_same [] = false /\ is_one_of (Atom 3) [Atom 4; Atom 3] = true /\
  strict_common (fun t => match t with App 6 _ => true | _ => false end) (App 6 [Atom 3]) [Atom 3; App 6 [Atom 4]; Atom 3] = Some (Atom 3) /\
  strict_common (fun t => match t with App 6 _ => true | _ => false end) (App 6 [Atom 3]) [Atom 3; Atom 4] = None.
Proof.
  assert (A : forall u n, occurs u (Atom n) -> u = Atom n) by (intros u n O; now inversion O).
  assert (B : forall u c ts, occurs u (App c ts) -> u = App c ts \/ exists x, In x ts /\ occurs u x).
  { intros u c ts O. inversion O; subst; [now left|]. right. eauto. }
  assert (N : forall u, occurs u (App 2 [Atom 3; App 3 [Atom 3]]) -> u = App 2 [Atom 3; App 3 [Atom 3]] \/ u = Atom 3 \/ u = App 3 [Atom 3]).
  { intros u O. apply B in O as [O|(x & [<-|[<-|[]]] & O)]; auto. apply B in O as [O|(x & [<-|[]] & O)]; auto. }
  repeat split; try discriminate.
  - intros c s C O. apply N in O as [O|[O|O]]; try discriminate. injection O as -> _. destruct C; discriminate.
  - intros O. apply N in O as [O|[O|O]]; discriminate.
Qed.
Print Assumptions C123_target.
Print Assumptions C123_same.
Print Assumptions C123_twice.
Print Assumptions C123_back.
Print Assumptions C123_containers.
Print Assumptions C123_map_refuted.
Print Assumptions C123_are_same.
Print Assumptions C123_is_one_of.
Print Assumptions C123_strict_common.
Print Assumptions C123_of_none.
Example C123_case_none : none <> dummy_container /\ Void <> none /\ Void <> dummy_container.
Proof. repeat split; discriminate. Qed.
