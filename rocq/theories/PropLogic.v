(** Logical expressions (C150). *)
From Coq Require Import ZArith List Bool PeanoNat Lia.
From Verif Require Import Outcome ExprModel ExprProofs LogicModel.
Import ListNotations.
Local Open Scope nat_scope.

Section Facts.
  Variable user : nat -> list lvalue -> outcome lvalue.
  Variable st : nat -> lvalue.
  Local Notation lmeans := (means ltype_of ltruth (lprim user) lformula st).
  Definition good (v : lvalue) : Prop := True.
  Lemma goods vs : Forall good vs. Proof. induction vs; constructor; easy. Qed.
  Lemma logic_signature : signature_ok ltype_of (lprim user) lformula lpolicy st good.
  Proof.
    constructor; try easy.
    - intros o tys f F. destruct o; try discriminate; destruct tys as [|a [|b [|c tys]]]; try discriminate; cbn in F;
        repeat match type of F with context [match ?x with _ => _ end] => destruct x end; try discriminate; now injection F as <-.
    - intros o vs tys f _ _ F. destruct o; try discriminate; destruct tys as [|a [|b [|c tys]]]; try discriminate; cbn in F;
        repeat match type of F with context [match ?x with _ => _ end] => destruct x end; try discriminate; now injection F as <-.
    - intros o vs f _ F. destruct o; try discriminate; destruct vs as [|a [|b [|c vs]]]; discriminate.
    - intros o vs tys _ _.
      assert (Q : exists f, forall k, resolve lformula lpolicy (3 + k) (TOp o) tys [] = Ok f).
      { destruct tys as [|a [|b [|c tys]]]; [ | destruct a as [[]|] | destruct a as [[]|]; destruct b as [[]|] | ];
          destruct o; eexists; intros k; reflexivity. }
      destruct Q as (f & Q). exists 3, f. intros k L. replace k with (3 + (k - 3)) by lia. apply Q.
  Qed.
  Lemma means_prim1 o vs f v : lformula o (map (fun v => Some (ltype_of v)) vs) = Some (TOp f) ->
    lformula f (map (fun v => Some (ltype_of v)) vs) = None -> (lmeans vs (TOp o) v <-> lprim user f vs = Ok v).
  Proof.
    intros F N. split.
    - intros (n & D). inversion D; subst; [congruence|]. match goal with H : lformula o _ = Some ?g |- _ => rewrite F in H; injection H as <- end.
      match goal with H : den _ _ _ _ _ _ _ (TOp f) _ |- _ => inversion H; subst end; [assumption | congruence].
    - intros E. exists 1. apply d_formula with (TOp f); [assumption|]. now constructor.
  Qed.
  Lemma means_none o vs v : lformula o (map (fun v => Some (ltype_of v)) vs) = None -> (lmeans vs (TOp o) v <-> lprim user o vs = Ok v).
  Proof.
    intros N. split; [|intros E; exists 0; now constructor].
    intros (n & D). inversion D; subst; [assumption | congruence].
  Qed.
  Lemma and_means vs a b v : lmeans vs (land a b) v <-> exists x y, lmeans vs a (LBool x) /\ lmeans vs b (LBool y) /\ v = LBool (x && y).
  Proof.
    split.
    - intros D. apply means_expr_inv in D as [(_ & ws & M & D) | (? & _)]; [|discriminate].
      inversion M as [|? x ? ? Ma M' ]; subst. inversion M' as [|? y ? ? Mb M'']; subst. inversion M''; subst.
      apply (means_prim1 LAnd _ LAndScalar) in D; [|reflexivity..]. destruct x as [x|], y as [y|]; try discriminate. injection D as <-. eauto.
    - intros (x & y & Ma & Mb & ->). apply means_expr with [LBool x; LBool y]; [reflexivity | repeat constructor; auto |].
      now apply (means_prim1 LAnd _ LAndScalar).
  Qed.
  Lemma or_means vs a b v : lmeans vs (lor a b) v <-> exists x y, lmeans vs a (LBool x) /\ lmeans vs b (LBool y) /\ v = LBool (x || y).
  Proof.
    split.
    - intros D. apply means_expr_inv in D as [(_ & ws & M & D) | (? & _)]; [|discriminate].
      inversion M as [|? x ? ? Ma M' ]; subst. inversion M' as [|? y ? ? Mb M'']; subst. inversion M''; subst.
      apply (means_prim1 LOr _ LOrScalar) in D; [|reflexivity..]. destruct x as [x|], y as [y|]; try discriminate. injection D as <-. eauto.
    - intros (x & y & Ma & Mb & ->). apply means_expr with [LBool x; LBool y]; [reflexivity | repeat constructor; auto |].
      now apply (means_prim1 LOr _ LOrScalar).
  Qed.
  Lemma not_means vs a v : lmeans vs (lnot a) v <-> exists x, lmeans vs a (LBool x) /\ v = LBool (negb x).
  Proof.
    split.
    - intros D. apply means_expr_inv in D as [(_ & ws & M & D) | (? & _)]; [|discriminate].
      inversion M as [|? x ? ? Ma M' ]; subst. inversion M'; subst.
      apply (means_prim1 LNot _ LNotScalar) in D; [|reflexivity..]. destruct x as [x|]; try discriminate. injection D as <-. eauto.
    - intros (x & Ma & ->). apply means_expr with [LBool x]; [reflexivity | repeat constructor; auto |].
      now apply (means_prim1 LNot _ LNotScalar).
  Qed.
  Lemma arg_means vs i n v : lmeans vs (TArg i n) v <-> length vs = n /\ nth_error vs i = Some v.
  Proof. split; [intros (k & D); now inversion D | intros []; exists 0; now constructor]. Qed.
  Lemma val_means vs w v : lmeans vs (TVal w) v <-> v = w.
  Proof. split; [intros (k & D); now inversion D | intros ->; exists 0; constructor]. Qed.
  Lemma implies_means vs a b v : lmeans vs (limplies a b) v <-> exists x y, lmeans vs a (LBool x) /\ lmeans vs b (LBool y) /\ v = LBool (implb x y).
  Proof.
    split.
    - intros D. apply means_expr_inv in D as [(_ & ws & M & D) | (? & _)]; [|discriminate].
      inversion M as [|? x ? ? Ma M' ]; subst. inversion M' as [|? y ? ? Mb M'']; subst. inversion M''; subst.
      apply or_means in D as (x' & y' & D1 & D2 & ->). apply not_means in D1 as (x'' & D1 & E). apply arg_means in D1 as (_ & D1). apply arg_means in D2 as (_ & D2).
      cbn in D1, D2. injection D1 as ->. injection D2 as ->. injection E as ->. exists x'', y'. split; [assumption|]. split; [assumption|]. now destruct x''.
    - intros (x & y & Ma & Mb & ->). apply means_expr with [LBool x; LBool y]; [reflexivity | repeat constructor; auto |].
      apply or_means. exists (negb x), y. split; [apply not_means; exists x; split; [apply arg_means; now split | reflexivity]|].
      split; [apply arg_means; now split|]. now destruct x.
  Qed.
  Lemma if_means vs c a b v : lmeans vs (lif c a b) v <-> exists w x, lmeans vs c w /\ ltruth w = Some x /\ lmeans vs (if x then a else b) v.
  Proof.
    split.
    - intros D. apply means_expr_inv in D as [(? & _) | (_ & c' & a' & b' & w & x & [= <- <- <-] & D)]; [discriminate|]. now exists w, x.
    - intros (w & x & (n & M) & T & (m & D)). exists (S (n + m)). apply d_cond with w x; [| assumption |].
      + apply (den_mono _ _ _ _ _ n); [lia | assumption].
      + apply (den_mono _ _ _ _ _ m); [lia | assumption].
  Qed.
End Facts.

(** ** Specification *)
(** Formulas over placeholders, with their value in the usual sense. *)
Inductive form := FArg (i : nat) | FConst (b : bool) | FNot (f : form) | FAnd (f g : form) | FOr (f g : form) | FImplies (f g : form).
Fixpoint holds (f : form) (vs : list bool) : bool :=
  match f with
  | FArg i => nth i vs false
  | FConst b => b
  | FNot f => negb (holds f vs)
  | FAnd f g => holds f vs && holds g vs
  | FOr f g => holds f vs || holds g vs
  | FImplies f g => if holds f vs then holds g vs else true
  end.
Fixpoint below (n : nat) (f : form) : Prop :=
  match f with
  | FArg i => i < n
  | FConst _ => True
  | FNot f => below n f
  | FAnd f g | FOr f g | FImplies f g => below n f /\ below n g
  end.
Fixpoint uses_argument (f : form) : bool :=
  match f with
  | FArg _ => true
  | FConst _ => false
  | FNot f => uses_argument f
  | FAnd f g | FOr f g | FImplies f g => uses_argument f || uses_argument g
  end.
Definition leaf (f : form) : bool := match f with FArg _ | FConst _ => true | _ => false end.
(** How the formula is written with the library. *)
Fixpoint written (n : nat) (f : form) : lterm :=
  match f with
  | FArg i => TArg i n
  | FConst b => TVal (LBool b)
  | FNot f => lnot (written n f)
  | FAnd f g => land (written n f) (written n g)
  | FOr f g => lor (written n f) (written n g)
  | FImplies f g => limplies (written n f) (written n g)
  end.
Definition lvalue_of user st (t : lterm) (v : lvalue) : Prop := exists k, levaluates user k st t = Ok v.

Lemma written_operation n f : is_operation (written n f) = uses_argument f.
Proof. induction f; cbn; rewrite ?orb_false_r; auto; now rewrite ?IHf1, ?IHf2. Qed.
Lemma written_wf n f : wf good (written n f).
Proof. induction f; cbn; unfold good; auto 10. Qed.
Lemma written_arity n f : below n f -> arity n (written n f).
Proof. induction f; cbn; intuition auto. Qed.
Lemma written_means user st n f vs : below n f -> length vs = n ->
  forall v, means ltype_of ltruth (lprim user) lformula st (map LBool vs) (written n f) v <-> v = LBool (holds f vs).
Proof.
  intros B L. induction f as [i|b|f IH|f IHf g IHg|f IHf g IHg|f IHf g IHg]; intros v; cbn in B |- *.
  - rewrite arg_means, map_length, nth_error_map. rewrite (nth_error_nth' vs false) by lia. cbn. split; [now intros (_ & [= <-]) | intros ->; now split].
  - apply val_means.
  - rewrite not_means. setoid_rewrite (IH B). split; [now intros (x & [= ->] & ->) | intros ->; eauto].
  - destruct B as [B1 B2]. rewrite and_means. setoid_rewrite (IHf B1). setoid_rewrite (IHg B2).
    split; [now intros (x & y & [= ->] & [= ->] & ->) | intros ->; eauto].
  - destruct B as [B1 B2]. rewrite or_means. setoid_rewrite (IHf B1). setoid_rewrite (IHg B2).
    split; [now intros (x & y & [= ->] & [= ->] & ->) | intros ->; eauto].
  - destruct B as [B1 B2]. rewrite implies_means. setoid_rewrite (IHf B1). setoid_rewrite (IHg B2).
    split; [now intros (x & y & [= ->] & [= ->] & ->) | intros ->; eauto].
Qed.

(** A formula written with !, &&, || and logical_implies and called with values of its placeholders has the
    value it has in logic, and no other. *)
Theorem C150_formula user st n f vs v : below n f -> length vs = n -> uses_argument f = true -> leaf f = false ->
  (lvalue_of user st (lcall (written n f) (map LBool vs)) v <-> v = LBool (holds f vs)).
Proof.
  intros B L U Lf. unfold lvalue_of, levaluates, lcall.
  rewrite (call_means ltype_of ltruth (lprim user) lformula lpolicy st good (logic_signature user st) (written n f) (map LBool vs) v).
  - now apply written_means.
  - left. destruct f; try discriminate; cbn [written] in *; pose proof (written_operation n) as W; unfold head; cbn -[is_operation];
      (match goal with |- is_operation ?t = true => match t with
        | lnot (written n ?f) => apply (eq_trans (W (FNot f))), U | land (written n ?f) (written n ?g) => apply (eq_trans (W (FAnd f g))), U
        | lor (written n ?f) (written n ?g) => apply (eq_trans (W (FOr f g))), U | limplies (written n ?f) (written n ?g) => apply (eq_trans (W (FImplies f g))), U end end).
  - apply written_wf.
  - rewrite map_length, L. now apply written_arity.
  - apply goods.
Qed.
Print Assumptions C150_formula.

(** Every function of booleans is the value of a formula with !, && and || only. *)
Fixpoint plain (f : form) : Prop :=
  match f with FArg _ => True | FNot f => plain f | FAnd f g | FOr f g => plain f /\ plain g | _ => False end.
Lemma tabulate (n : nat) : 0 < n -> forall m, m <= n -> forall g : list bool -> bool, exists f, below n f /\ plain f /\ leaf f = false /\ uses_argument f = true /\
  forall vs, length vs = n -> holds f vs = g (skipn (n - m) vs).
Proof.
  intros P. induction m as [|m IH]; intros M g.
  - destruct (g []) eqn:G; [exists (FOr (FArg 0) (FNot (FArg 0))) | exists (FAnd (FArg 0) (FNot (FArg 0)))]; cbn; repeat split; auto; intros vs L;
      rewrite Nat.sub_0_r, skipn_all2 by lia; rewrite G; [apply orb_negb_r | apply andb_negb_r].
  - destruct (IH ltac:(lia) (fun l => g (true :: l))) as (f1 & B1 & Q1 & L1 & U1 & H1). destruct (IH ltac:(lia) (fun l => g (false :: l))) as (f0 & B0 & Q0 & L0 & U0 & H0).
    exists (FOr (FAnd (FArg (n - S m)) f1) (FAnd (FNot (FArg (n - S m))) f0)). cbn. repeat split; auto; try lia.
    intros vs L. rewrite H1, H0 by assumption.
    assert (S1 : skipn (n - S m) vs = nth (n - S m) vs false :: skipn (n - m) vs).
    { assert (G : forall (l : list bool) k, k < length l -> skipn k l = nth k l false :: skipn (S k) l).
      { induction l as [|x l IHl]; intros [|k] K; cbn in *; try lia; [reflexivity|]. rewrite IHl by lia. destruct l; reflexivity. }
      rewrite (G vs) by lia. now replace (S (n - S m)) with (n - m) by lia. }
    rewrite S1. destruct (nth (n - S m) vs false); cbn; now rewrite ?orb_false_r.
Qed.
Theorem C150_complete user st n (g : list bool -> bool) : 0 < n -> exists f, plain f /\ below n f /\
  forall vs v, length vs = n -> (lvalue_of user st (lcall (written n f) (map LBool vs)) v <-> v = LBool (g vs)).
Proof.
  intros P. destruct (tabulate n P n (le_n n) g) as (f & B & Q & Lf & U & H). exists f. split; [assumption|]. split; [assumption|].
  intros vs v L. rewrite C150_formula by assumption. rewrite (H vs L), Nat.sub_diag. reflexivity.
Qed.
Print Assumptions C150_complete.

(** Operands which are any terms, calls of operations of the user among them: a value for [vs] in the sense of
    C99_evaluation. *)
Definition value_for user st (vs : list lvalue) (t : lterm) (v : lvalue) : Prop :=
  match t with TArg i n => length vs = n /\ nth_error vs i = Some v | TVal w => v = w | _ => lvalue_of user st (if is_operation t then lcall t vs else t) v end.
Definition proper (vs : list lvalue) (t : lterm) : Prop :=
  wf good t /\ arity (length vs) t /\ (is_operation t = false -> arity 0 t).
Lemma value_for_means user st vs t v : proper vs t ->
  (value_for user st vs t v <-> means ltype_of ltruth (lprim user) lformula st vs t v).
Proof.
  intros (W & A & Z). pose proof (logic_signature user st) as sig. unfold value_for, lvalue_of, levaluates.
  destruct (is_operation t) eqn:O.
  - destruct t as [w|l|i n|o| |f p|g ts]; try discriminate.
    + symmetry. apply arg_means.
    + apply (call_means _ _ _ _ _ _ _ sig (TOp o) vs v); auto using goods.
    + apply (call_means _ _ _ _ _ _ _ sig TIf vs v); auto using goods.
    + easy.
    + apply (call_means _ _ _ _ _ _ _ sig (TExpr g ts) vs v); auto using goods.
  - assert (M : forall a b, means ltype_of ltruth (lprim user) lformula st a t v -> means ltype_of ltruth (lprim user) lformula st b t v) by (intros a b; now apply closed_means).
    destruct (eval_means ltype_of ltruth (lprim user) lformula lpolicy st good sig t v W (Z eq_refl) O) as [E _].
    destruct t as [w|l|i n|o| |f p|g ts]; try discriminate; [symmetry; apply val_means | rewrite E; split; apply M | rewrite E; split; apply M].
Qed.
Lemma proper_expr vs g ts : head g = true \/ g = TIf -> wf good g -> arity (length ts) g -> Forall (proper vs) ts -> proper vs (TExpr g ts).
Proof.
  intros Hg W A T. split; [|split].
  - cbn. repeat split; auto. apply wf_list. eapply Forall_impl; [|exact T]. now intros t (? & _).
  - cbn. split; auto. apply arity_list. eapply Forall_impl; [|exact T]. now intros t (_ & ? & _).
  - cbn. intros E. split; auto. apply arity_list. clear - T E. induction T as [|t ts (_ & _ & Z) T IH]; constructor; cbn in E; apply orb_false_iff in E as [E1 E2]; auto.
Qed.
Lemma proper_land vs a b : proper vs a -> proper vs b -> proper vs (land a b).
Proof. intros. apply proper_expr; cbn; auto. Qed.
Lemma proper_lor vs a b : proper vs a -> proper vs b -> proper vs (lor a b).
Proof. intros. apply proper_expr; cbn; auto. Qed.
Lemma proper_lnot vs a : proper vs a -> proper vs (lnot a).
Proof. intros. apply proper_expr; cbn; auto. Qed.
Lemma proper_limplies vs a b : proper vs a -> proper vs b -> proper vs (limplies a b).
Proof. intros. apply proper_expr; cbn; auto 10 using conj. Qed.
Lemma proper_lif vs a b c : proper vs a -> proper vs b -> proper vs c -> proper vs (lif a b c).
Proof. intros. apply proper_expr; cbn; auto. Qed.

(** The operations are strict in both operands and defined for bool only; if_else is not strict. *)
Theorem C150_strict user st vs a b v : proper vs a -> proper vs b ->
  (value_for user st vs (land a b) v <-> exists x y, value_for user st vs a (LBool x) /\ value_for user st vs b (LBool y) /\ v = LBool (x && y)) /\
  (value_for user st vs (lor a b) v <-> exists x y, value_for user st vs a (LBool x) /\ value_for user st vs b (LBool y) /\ v = LBool (x || y)) /\
  (value_for user st vs (limplies a b) v <-> exists x y, value_for user st vs a (LBool x) /\ value_for user st vs b (LBool y) /\ v = LBool (implb x y)) /\
  (value_for user st vs (lnot a) v <-> exists x, value_for user st vs a (LBool x) /\ v = LBool (negb x)).
Proof.
  intros Pa Pb. rewrite !value_for_means by auto using proper_land, proper_lor, proper_lnot, proper_limplies.
  setoid_rewrite (fun v => value_for_means user st vs a v Pa). setoid_rewrite (fun v => value_for_means user st vs b v Pb).
  repeat split; try apply and_means; try apply or_means; try apply implies_means; apply not_means.
Qed.
Print Assumptions C150_strict.
(** The laws which hold for operands with and without values. *)
Definition same user st vs (s t : lterm) : Prop := forall v, value_for user st vs s v <-> value_for user st vs t v.
Theorem C150_laws user st vs a b c : proper vs a -> proper vs b -> proper vs c ->
  same user st vs (land a b) (land b a) /\ same user st vs (lor a b) (lor b a) /\
  same user st vs (land a (land b c)) (land (land a b) c) /\ same user st vs (lor a (lor b c)) (lor (lor a b) c) /\
  same user st vs (lnot (land a b)) (lor (lnot a) (lnot b)) /\ same user st vs (lnot (lor a b)) (land (lnot a) (lnot b)) /\
  same user st vs (land a (lor b c)) (lor (land a b) (land a c)) /\ same user st vs (limplies a b) (limplies (lnot b) (lnot a)) /\
  (forall x, value_for user st vs (land (TVal (LBool and_identity)) a) (LBool x) <-> value_for user st vs a (LBool x)) /\
  (forall x, value_for user st vs (lor (TVal (LBool or_identity)) a) (LBool x) <-> value_for user st vs a (LBool x)).
Proof.
  intros Pa Pb Pc. assert (Pv : forall x, proper vs (TVal (LBool x))) by (intros x; unfold proper, good; cbn; auto).
  unfold same.
  assert (K : forall t, proper vs t -> forall v, value_for user st vs t v <-> means ltype_of ltruth (lprim user) lformula st vs t v) by (intros; now apply value_for_means).
  assert (Un : forall t x y, means ltype_of ltruth (lprim user) lformula st vs t (LBool x) -> means ltype_of ltruth (lprim user) lformula st vs t (LBool y) -> x = y)
    by (intros t x y H1 H2; pose proof (means_unique _ _ _ _ _ _ _ _ _ H1 H2) as E; now injection E).
  repeat match goal with |- _ /\ _ => split end; intros v; rewrite !K by auto 8 using proper_land, proper_lor, proper_lnot, proper_limplies; split; intros H;
  repeat match goal with
  | H : means _ _ _ _ _ _ (land _ _) _ |- _ => apply and_means in H as (? & ? & ? & ? & ?)
  | H : means _ _ _ _ _ _ (lor _ _) _ |- _ => apply or_means in H as (? & ? & ? & ? & ?)
  | H : means _ _ _ _ _ _ (limplies _ _) _ |- _ => apply implies_means in H as (? & ? & ? & ? & ?)
  | H : means _ _ _ _ _ _ (lnot _) _ |- _ => apply not_means in H as (? & ? & ?)
  | H : means _ _ _ _ _ _ (TVal _) _ |- _ => apply val_means in H
  | H : LBool _ = LBool _ |- _ => injection H as H
  | H : LBool _ = ?v |- _ => symmetry in H
  end; subst;
  repeat match goal with H1 : means _ _ _ _ _ _ ?t (LBool ?x), H2 : means _ _ _ _ _ _ ?t (LBool ?y) |- _ => pose proof (Un t x y H1 H2); subst; clear H2 end;
  unfold and_identity, or_identity in *; cbn [andb orb]; auto;
  (match goal with |- means _ _ _ _ _ _ ?t (LBool ?x) => idtac | |- means _ _ _ _ _ _ ?t ?v => idtac end).
  all: repeat match goal with
  | |- means _ _ _ _ _ _ (land _ _) _ => apply and_means; eexists _, _; split; [|split]
  | |- means _ _ _ _ _ _ (lor _ _) _ => apply or_means; eexists _, _; split; [|split]
  | |- means _ _ _ _ _ _ (limplies _ _) _ => apply implies_means; eexists _, _; split; [|split]
  | |- means _ _ _ _ _ _ (lnot _) _ => apply not_means; eexists; split
  | |- means _ _ _ _ _ _ (TVal _) _ => apply val_means; reflexivity
  | |- means _ _ _ _ _ _ ?t _ => eassumption
  end; try reflexivity; f_equal;
  repeat match goal with x : bool |- _ => destruct x; try reflexivity end.
Qed.
Print Assumptions C150_laws.

(** A guard does not protect the second operand as it does with the operators of the language; if_else does. *)
Theorem C150_if_else user st vs c a b v : proper vs c -> proper vs a -> proper vs b ->
  (value_for user st vs (lif c a b) v <->
   (value_for user st vs c (LBool true) /\ value_for user st vs a v) \/ (value_for user st vs c (LBool false) /\ value_for user st vs b v) \/
   (exists z, z <> 0%Z /\ value_for user st vs c (LInt z) /\ value_for user st vs a v) \/ (value_for user st vs c (LInt 0) /\ value_for user st vs b v)).
Proof.
  intros Pc Pa Pb. rewrite !value_for_means by auto using proper_lif. setoid_rewrite (fun v => value_for_means user st vs c v Pc). setoid_rewrite (fun v => value_for_means user st vs a v Pa). rewrite if_means.
  split.
  - intros ([w|z] & x & H1 & [= <-] & H3); [destruct w; auto|]. destruct (z =? 0)%Z eqn:Z; cbn in H3.
    + apply Z.eqb_eq in Z as ->. auto.
    + apply Z.eqb_neq in Z. right; right; left. now exists z.
  - intros [[H1 H2]|[[H1 H2]|[(z & Z & H1 & H2)|[H1 H2]]]]; eexists _, _; (split; [exact H1|]); cbn [ltruth]; (split; [reflexivity|]); try exact H2.
    apply Z.eqb_neq in Z. rewrite Z. exact H2.
Qed.
Print Assumptions C150_if_else.
Theorem C150_guard_refuted user u st vs g t : proper vs g -> proper vs t -> t = TExpr (TOp (LUser u)) [TArg 0 1] ->
  (forall v, user u vs <> Ok v) -> value_for user st vs g (LBool false) ->
  (forall v, ~ value_for user st vs (land g t) v) /\ value_for user st vs (lif g t (TVal (LBool false))) (LBool false).
Proof.
  intros Pg Pt -> U G. split.
  - intros v H. apply C150_strict in H as (x & y & _ & H & _); [|assumption..].
    apply value_for_means in H; [|assumption]. apply means_expr_inv in H as [(_ & ws & M & D) | (? & _)]; [|discriminate].
    inversion M as [|? w ? ? Ma M']; subst. inversion M'; subst. apply arg_means in Ma as (L & Ma).
    destruct vs as [|w' [|? ?]]; try discriminate. cbn in Ma. injection Ma as ->.
    apply means_none in D; [|reflexivity]. now apply (U (LBool y)).
  - apply C150_if_else; [assumption..| unfold proper, good; cbn; auto |]. right; left. split; [assumption | exact eq_refl].
Qed.
Print Assumptions C150_guard_refuted.

(** Folds with the identity elements, each step evaluated. *)
(** [steps op x l v]: [v] is what is left after op(...op(op(x, l0), l1)..., ln). *)
Inductive steps user st (op : loper) : lvalue -> list bool -> lvalue -> Prop :=
| steps_end x : steps user st op x [] x
| steps_next x b l y v : lvalue_of user st (lcall (TOp op) [x; LBool b]) y -> steps user st op y l v -> steps user st op x (b :: l) v.
Theorem C150_fold user st l v :
  (steps user st LAnd (LBool and_identity) l v <-> v = LBool (forallb (fun b => b) l)) /\
  (steps user st LOr (LBool or_identity) l v <-> v = LBool (existsb (fun b => b) l)).
Proof.
  assert (A : forall x b y, lvalue_of user st (lcall (TOp LAnd) [LBool x; LBool b]) y <-> y = LBool (x && b)).
  { intros x b y. unfold lvalue_of, levaluates, lcall.
    rewrite (call_means ltype_of ltruth (lprim user) lformula lpolicy st good (logic_signature user st) (TOp LAnd) [LBool x; LBool b] y) by (cbn; auto using goods).
    rewrite (means_prim1 user st LAnd _ LAndScalar) by reflexivity. cbn. split; [now intros [= <-] | now intros ->]. }
  assert (O : forall x b y, lvalue_of user st (lcall (TOp LOr) [LBool x; LBool b]) y <-> y = LBool (x || b)).
  { intros x b y. unfold lvalue_of, levaluates, lcall.
    rewrite (call_means ltype_of ltruth (lprim user) lformula lpolicy st good (logic_signature user st) (TOp LOr) [LBool x; LBool b] y) by (cbn; auto using goods).
    rewrite (means_prim1 user st LOr _ LOrScalar) by reflexivity. cbn. split; [now intros [= <-] | now intros ->]. }
  split.
  - enough (G : forall x, steps user st LAnd (LBool x) l v <-> v = LBool (x && forallb (fun b => b) l)) by apply (G and_identity).
    induction l as [|b l IH]; intros x; cbn.
    + rewrite andb_true_r. split; [intros H; now inversion H | intros ->; constructor].
    + rewrite andb_assoc, <- IH. split; [intros H; inversion H as [|? ? ? y ? E H']; subst; apply A in E as ->; assumption |].
      intros H. apply steps_next with (LBool (x && b)); [now apply A | assumption].
  - enough (G : forall x, steps user st LOr (LBool x) l v <-> v = LBool (x || existsb (fun b => b) l)) by apply (G or_identity).
    induction l as [|b l IH]; intros x; cbn.
    + rewrite orb_false_r. split; [intros H; now inversion H | intros ->; constructor].
    + rewrite orb_assoc, <- IH. split; [intros H; inversion H as [|? ? ? y ? E H']; subst; apply O in E as ->; assumption |].
      intros H. apply steps_next with (LBool (x || b)); [now apply O | assumption].
Qed.
Print Assumptions C150_fold.

(** Cases. *)
Definition user150 (u : nat) (vs : list lvalue) : outcome lvalue :=
  match u, vs with
  | 0, [LInt z] => if (z =? 0)%Z then UB else Ok (LBool (1 <? 10 / z)%Z)   (* 10 / x > 1 *)
  | 1, [LInt z] => Ok (LBool (negb (z =? 0)%Z))                            (* x != 0 *)
  | _, _ => UB
  end.
Definition st150 (l : nat) : lvalue := LBool false.
Example C150_case : let f := FImplies (FAnd (FArg 0) (FNot (FArg 1))) (FOr (FArg 2) (FConst false)) in
  below 3 f /\ uses_argument f = true /\ leaf f = false /\
  levaluates user150 30 st150 (lcall (written 3 f) [LBool true; LBool false; LBool false]) = Ok (LBool false) /\
  levaluates user150 30 st150 (lcall (written 3 f) [LBool true; LBool true; LBool false]) = Ok (LBool true) /\
  levaluates user150 30 st150 (lcall (land (TArg 0 2) (TArg 1 2)) [LInt 1; LInt 1]) = UB.
Proof. cbn [below]. repeat split; try lia. Qed.
(** Exclusive or of two placeholders by the theorem above. *)
Example C150_case_complete : exists f, plain f /\ below 2 f /\
  lvalue_of user150 st150 (lcall (written 2 f) [LBool true; LBool false]) (LBool true) /\ lvalue_of user150 st150 (lcall (written 2 f) [LBool true; LBool true]) (LBool false).
Proof.
  destruct (C150_complete user150 st150 2 (fun l => xorb (nth 0 l false) (nth 1 l false)) ltac:(lia)) as (f & P & B & H). exists f.
  split; [assumption|]. split; [assumption|]. split; [apply (H [true; false] (LBool true) eq_refl) | apply (H [true; true] (LBool false) eq_refl)]; reflexivity.
Qed.
(** x != 0 && 10 / x > 1. *)
Definition guard150 : lterm := TExpr (TOp (LUser 1)) [TArg 0 1].
Definition ratio150 : lterm := TExpr (TOp (LUser 0)) [TArg 0 1].
Example C150_case_guard : proper [LInt 0] guard150 /\ proper [LInt 0] ratio150 /\
  (forall v, user150 0 [LInt 0] <> Ok v) /\ value_for user150 st150 [LInt 0] guard150 (LBool false) /\
  levaluates user150 30 st150 (lcall (land guard150 ratio150) [LInt 0]) = UB /\
  levaluates user150 30 st150 (lcall (land guard150 ratio150) [LInt 3]) = Ok (LBool true) /\
  levaluates user150 30 st150 (lcall (lif guard150 ratio150 (TVal (LBool false))) [LInt 0]) = Ok (LBool false).
Proof. unfold proper. cbn [wf arity guard150 ratio150]. repeat split; auto; try easy; try lia. now exists 30. Qed.
Example C150_case_laws : proper [LBool true; LBool false] (TArg 0 2) /\ proper [LBool true; LBool false] (lnot (TArg 1 2)) /\
  value_for user150 st150 [LBool true; LBool false] (land (TArg 0 2) (lor (lnot (TArg 1 2)) (TVal (LBool false)))) (LBool true).
Proof. unfold proper. cbn [wf arity lnot]. repeat split; auto; try easy; try (cbn; lia). now exists 30. Qed.
Example C150_case_fold : steps user150 st150 LAnd (LBool and_identity) [true; false; true] (LBool false) /\ steps user150 st150 LOr (LBool or_identity) [] (LBool false).
Proof. split; apply (C150_fold user150 st150 _ _); reflexivity. Qed.
