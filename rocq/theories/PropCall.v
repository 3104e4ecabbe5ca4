(** C120: calls of the matching elements of a tuple. *)
From Coq Require Import List Bool Arith Lia.
From Verif Require Import Outcome CallModel.
Import ListNotations.

(** Which expressions initialise a parameter: one of the same type; by value, if it can be copied or moved from; a reference
    to non-const, if it is a non-const lvalue; an rvalue reference, if it is an rvalue that is as const. *)
Inductive converts : param -> arg -> Prop :=
| conv_copy t a : t_name t = t_name (a_type a) -> t_copyable t = true -> converts (PValue t) a
| conv_move t a : t_name t = t_name (a_type a) -> a_lvalue a = false -> a_const a = false -> converts (PValue t) a
| conv_ref t a : t_name t = t_name (a_type a) -> a_lvalue a = true -> a_const a = false -> converts (PRef t) a
| conv_const_ref t a : t_name t = t_name (a_type a) -> converts (PConstRef t) a
| conv_rvalue t a : t_name t = t_name (a_type a) -> a_lvalue a = false -> a_const a = false -> converts (PRvalue t) a
| conv_const_rvalue t a : t_name t = t_name (a_type a) -> a_lvalue a = false -> converts (PConstRvalue t) a
| conv_any a : converts PAny a.
Lemma binds_converts p a : binds p a = true <-> converts p a.
Proof.
  destruct a as [[m d] k l]; destruct p as [t|t|t|t|t|]; unfold binds, same; cbn [a_type a_const a_lvalue t_name]; [..|split; [constructor|reflexivity]];
    destruct t as [n c]; cbn [t_name t_copyable]; destruct (Nat.eqb_spec n m) as [E|E]; cbn [andb].
  - destruct c, l, k; cbn [orb negb]; (split; [intros H; try discriminate H; first [now apply conv_copy | now apply conv_move]
      |intros H; inversion H; subst; cbn in *; congruence]).
  - split; [discriminate|]. intros H; inversion H; subst; cbn in *; congruence.
  - destruct l, k; cbn; (split; [intros H; try discriminate H; now apply conv_ref|intros H; inversion H; subst; cbn in *; congruence]).
  - split; [discriminate|]. intros H; inversion H; subst; cbn in *; congruence.
  - split; [intros _; now apply conv_const_ref|reflexivity].
  - split; [discriminate|]. intros H; inversion H; subst; cbn in *; congruence.
  - destruct l, k; cbn; (split; [intros H; try discriminate H; now apply conv_rvalue|intros H; inversion H; subst; cbn in *; congruence]).
  - split; [discriminate|]. intros H; inversion H; subst; cbn in *; congruence.
  - destruct l; cbn; (split; [intros H; try discriminate H; now apply conv_const_rvalue|intros H; inversion H; subst; cbn in *; congruence]).
  - split; [discriminate|]. intros H; inversion H; subst; cbn in *; congruence.
Qed.
(** The call expression is valid: every argument initialises its parameter. *)
Definition valid {W} (c : callable (W := W)) (args : list arg) : Prop := Forall2 converts (c_params c) args.
Lemma invocable_valid {W} (c : callable (W := W)) args : invocable c args = true <-> valid c args.
Proof.
  unfold invocable, valid. generalize (c_params c). intros ps. revert args.
  induction ps as [|p ps IH]; intros [|a args]; cbn [all2]; split; intros H; try discriminate; try (inversion H; fail); auto.
  - apply andb_true_iff in H as [H1 H2]. constructor; [now apply binds_converts|]. now apply IH.
  - inversion H; subst. apply andb_true_iff. split; [now apply binds_converts|]. now apply IH.
Qed.

(** invoke_first_matching calls the first element that can be called with the arguments, once, and no
    other; without such an element the program does not compile. *)
Theorem C120_first : forall (W : Type) (cs : list (callable (W := W))) args w,
  (exists before c after, cs = before ++ c :: after /\ Forall (fun c => ~ valid c args) before /\ valid c args /\
     invoke_first_matching cs args w = Some (c_call c args w)) \/
  Forall (fun c => ~ valid c args) cs /\ invoke_first_matching cs args w = None.
Proof.
  intros W cs args w. unfold invoke_first_matching.
  assert (H : forall k pre rest, cs = pre ++ rest -> k = length rest -> Forall (fun c => ~ valid c args) pre ->
    (exists before c after, cs = before ++ c :: after /\ Forall (fun c => ~ valid c args) before /\ valid c args /\
       find_first_matching cs args (length pre) k = Some (length before)) \/
    Forall (fun c => ~ valid c args) cs /\ find_first_matching cs args (length pre) k = None).
  { induction k as [|k IH]; intros pre rest E L F.
    - right. destruct rest; [|discriminate]. rewrite app_nil_r in E. subst. auto.
    - destruct rest as [|c rest]; [discriminate|]. cbn [find_first_matching].
      assert (N : nth_error cs (length pre) = Some c) by (subst; rewrite nth_error_app2, Nat.sub_diag by lia; reflexivity).
      rewrite N. destruct (invocable c args) eqn:I.
      + left. exists pre, c, rest. apply invocable_valid in I. auto.
      + assert (V : ~ valid c args) by (rewrite <- invocable_valid; congruence).
        destruct (IH (pre ++ [c]) rest) as [H|H].
        * now rewrite <- app_assoc.
        * now injection L.
        * apply Forall_app. auto.
        * left. rewrite app_length, Nat.add_1_r in H. exact H.
        * right. rewrite app_length, Nat.add_1_r in H. exact H. }
  destruct (H (length cs) [] cs eq_refl eq_refl (Forall_nil _)) as [(b & c & a & E & F & V & K)|[F K]]; cbn [length] in K; rewrite K.
  - left. exists b, c, a. split; [exact E|]. split; [exact F|]. split; [exact V|].
    rewrite E. now rewrite nth_error_app2, Nat.sub_diag by lia.
  - right. auto.
Qed.

(** The parameter is a reference to non-const. *)
Definition mutable (p : param) : Prop := match p with PRef _ => True | _ => False end.
Lemma binds_both p a : binds p (as_rvalue a) && binds p (as_lvalue a) = true <-> binds p (as_lvalue a) = true /\ ~ mutable p.
Proof.
  destruct p as [t|t|t|t|t|], a as [[m d] k l]; unfold binds, same, as_rvalue, as_lvalue; cbn; [..|tauto];
    destruct t as [n c]; cbn; destruct (Nat.eqb n m), k, c; cbn; intuition congruence.
Qed.
Lemma both_valid {W} (c : callable (W := W)) args :
  invocable c (map as_rvalue args) && invocable c (map as_lvalue args) = true
  <-> valid c (map as_lvalue args) /\ Forall (fun p => ~ mutable p) (c_params c).
Proof.
  rewrite andb_true_iff, !invocable_valid. unfold valid. generalize (c_params c). intros ps. revert args.
  induction ps as [|p ps IH]; intros [|a args]; cbn [map];
    try (split; [intros [H1 H2]|intros [H1 H2]]; inversion H1; auto; fail).
  specialize (IH args). pose proof (binds_both p a) as B. rewrite andb_true_iff, !binds_converts in B. split.
  - intros [H1 H2]. inversion H1; inversion H2; subst. destruct IH as [IH _]. destruct IH; auto.
    split; constructor; tauto.
  - intros [H1 H2]. inversion H1; inversion H2; subst. destruct IH as [_ IH]. destruct IH; auto.
    split; constructor; tauto.
Qed.
(** invoke_all_matching calls, in the order of the tuple and once each, exactly the elements that can be called with
    the arguments passed by reference and have no parameter that is a reference to non-const. *)
Theorem C120_all : forall (W : Type) (cs : list (callable (W := W))) args,
  exists chosen : callable (W := W) -> bool,
    (forall c, chosen c = true <-> valid c (map as_lvalue args) /\ Forall (fun p => ~ mutable p) (c_params c)) /\
    forall w, invoke_all_matching cs args w = fold_left (fun w c => c_call c (map as_lvalue args) w) (filter chosen cs) w.
Proof.
  intros W cs args.
  exists (fun c => invocable c (map as_rvalue args) && invocable c (map as_lvalue args)).
  split; [intros c; apply both_valid|]. unfold invoke_all_matching.
  assert (I : map as_lvalue (map as_lvalue args) = map as_lvalue args) by (rewrite map_map; reflexivity).
  assert (J : map as_rvalue (map as_lvalue args) = map as_rvalue args) by (rewrite map_map; reflexivity).
  induction cs as [|c cs IH]; intros w; [reflexivity|]. cbn [fold_left filter]. unfold invoke_if_can at 2. rewrite I, J.
  destruct (invocable c (map as_rvalue args) && invocable c (map as_lvalue args)); cbn [fold_left]; apply IH.
Qed.
(** So with parameters taken by value or by reference to const, these are all that can be called. *)
Theorem C120_all_const : forall (W : Type) (cs : list (callable (W := W))) args,
  Forall (fun c => Forall (fun p => ~ mutable p) (c_params c)) cs ->
  exists chosen : callable (W := W) -> bool,
    (forall c, In c cs -> (chosen c = true <-> valid c (map as_lvalue args))) /\
    forall w, invoke_all_matching cs args w = fold_left (fun w c => c_call c (map as_lvalue args) w) (filter chosen cs) w.
Proof.
  intros W cs args F. destruct (C120_all W cs args) as (ch & Hc & E). exists ch. split; [|exact E].
  intros c I. rewrite Hc. rewrite Forall_forall in F. specialize (F c I). tauto.
Qed.
(** Finding: an element with a parameter that is a reference to non-const is silently skipped, although
    it can be called with the arguments. *)
Theorem C120_mutable_refuted : forall (W : Type) (c : callable (W := W)) args w,
  Exists mutable (c_params c) -> invoke_all_matching [c] args w = w.
Proof.
  intros W c args w H. destruct (C120_all W [c] args) as (ch & Hc & E). rewrite E. cbn [filter].
  destruct (ch c) eqn:K; [|reflexivity]. exfalso. apply Hc in K as [_ F].
  rewrite Exists_exists in H. destruct H as (p & I & M). rewrite Forall_forall in F. exact (F p I M).
Qed.
Example C120_case :
  let int := {| t_name := 0; t_copyable := true |} in
  let c ps n := {| c_params := ps; c_call := fun _ (w : list nat) => w ++ [n] |} in
  let x := {| a_type := int; a_const := false; a_lvalue := true |} in
  let cs := [c [PRef int] 0; c [PConstRef int] 1; c [PRvalue int] 2; c [PValue int] 3; c [PAny; PAny] 4; c [PAny] 5] in
  invoke_all_matching cs [x] [] = [1; 3; 5] /\ invoke_first_matching cs [x] [] = Some [0] /\
  valid (c [PRef int] 0) [x] /\ invoke_first_matching cs [] [] = None.
Proof. cbn. repeat split; auto. repeat constructor. Qed.
Print Assumptions C120_first.
Print Assumptions C120_all.
Print Assumptions C120_all_const.
Print Assumptions C120_mutable_refuted.
