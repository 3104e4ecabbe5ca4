(** Expressions, their evaluation and policies (C99-C101). *)
From Coq Require Import ZArith QArith Qabs List Bool PeanoNat Lia Lqa.
From Verif Require Import Outcome RangeModel ExprModel ExprProofs.
Import ListNotations.
Local Open Scope nat_scope.

(** C99: an expression of operations is applied pointwise. *)
(** For every set of operations: overloads, evaluate and a set of values on
    which overloads chosen before the types are known are the right ones
    ([signature_ok]), an expression without operations among its leaves has the
    value [v] exactly if [v] is its meaning. *)
Theorem C99_evaluation {val ty op pol : Type} (typeof : val -> ty) truth prim formula (apply_policy : op -> pol -> option (term val op pol)) st good :
  signature_ok typeof prim formula apply_policy st good -> forall t v, wf good t -> arity 0 t -> is_operation t = false ->
  ((exists k, eval typeof truth prim formula apply_policy k st t = Ok v) <-> means typeof truth prim formula st [] t v) /\
  (means typeof truth prim formula st [] t v -> exists k, forall k', k <= k' -> eval typeof truth prim formula apply_policy k' st t = Ok v).
Proof. intros sig t v. now apply eval_means. Qed.
Print Assumptions C99_evaluation.
Theorem C99_meaning_unique {val ty op pol : Type} (typeof : val -> ty) truth prim (formula : op -> list (option ty) -> option (term val op pol)) st vs t v w :
  means typeof truth prim formula st vs t v -> means typeof truth prim formula st vs t w -> v = w.
Proof. apply means_unique. Qed.
Print Assumptions C99_meaning_unique.

(** The comparisons and their operands satisfy the conditions for scalars. *)
Definition scalar (v : value) : Prop := match v with VRange _ => False | _ => True end.
Lemma scalars_type vs t : Forall scalar vs -> In t (map (fun v => Some (type_of v)) vs) -> is_range t = false.
Proof. intros G I. apply in_map_iff in I as (v & <- & I). rewrite Forall_forall in G. specialize (G v I). now destruct v. Qed.
Lemma scalars_ranges vs tys : Forall scalar vs -> fits type_of tys vs -> length vs <> 0 -> forallb is_range tys = false.
Proof.
  intros G [-> | ->] L; (destruct vs as [|v vs]; [easy|]); [|reflexivity].
  cbn [map forallb]. inversion_clear G. now destruct v.
Qed.
Lemma scalars_signature st : (forall l, scalar (st l)) -> signature_ok type_of evaluate formulas absolute_error st scalar.
Proof.
  intros S. constructor; [exact S| | | | |].
  - intros o vs v G E. destruct o; cbn in E; try discriminate; destruct vs as [|a [|b [|c vs]]]; try discriminate;
      try (destruct a; try discriminate; destruct b; try discriminate; now injection E as <-);
      destruct a; try discriminate; now injection E as <-.
  - intros o tys f F. unfold formulas in F. destruct o; try discriminate; destruct tys as [|a [|b [|c tys]]]; try discriminate;
      cbn [length] in F; repeat match type of F with context [if ?b then _ else _] => destruct b end; try discriminate; injection F as <-; reflexivity.
  - intros o vs tys f G T F. pose proof (scalars_ranges vs tys G T) as R. pose proof (fits_length type_of tys vs T) as L.
    unfold formulas in F. destruct o; try discriminate; destruct tys as [|a [|b [|c tys]]]; try discriminate;
      cbn [length] in F, L; try rewrite R in F by lia; cbv iota in F;
      repeat match type of F with context [if ?b then _ else _] => destruct b end; try discriminate; injection F as <-; cbn; repeat split; try lia; auto.
  - intros o vs f G F. pose proof (scalars_ranges vs _ G (or_introl eq_refl)) as R.
    unfold formulas in *. rewrite !map_length in *. destruct o; try discriminate; destruct vs as [|a [|b [|c vs]]]; try discriminate;
      try rewrite R by (cbn; lia); cbn in *; try discriminate; assumption.
  - intros o vs tys _ _.
    assert (Q : exists f, forall k, resolve formulas absolute_error (12 + k) (TOp o) tys [] = Ok f).
    { destruct tys as [|a [|b [|c tys]]]; [ | destruct a as [[]|] | destruct a as [[]|]; destruct b as [[]|] | ];
        destruct o; eexists; intros k; reflexivity. }
    destruct Q as (f & Q). exists 12, f. intros k L. replace k with (12 + (k - 12)) by lia. apply Q.
Qed.
(** [t(vs...)] has the value [w]. *)
Definition has_value (st : nat -> value) (t : texp) (w : value) : Prop := exists k, evaluates k st t = Ok w.
Definition value_at (st : nat -> value) (vs : list value) (t : texp) (w : value) : Prop :=
  match t with
  | TArg i n => length vs = n /\ nth_error vs i = Some w
  | _ => has_value st (if is_operation t then call t vs else t) w
  end.
Lemma value_at_means st : (forall l, scalar (st l)) -> forall vs t w, wf scalar t -> arity (length vs) t -> Forall scalar vs ->
  (is_operation t = false -> arity 0 t) ->
  (value_at st vs t w <-> means type_of bool_of evaluate formulas st vs t w).
Proof.
  intros S vs t w W A G Z. pose proof (scalars_signature st S) as sig. unfold value_at, has_value, evaluates.
  destruct (is_operation t) eqn:O.
  - destruct t as [v|l|i n|o| |f p|g ts]; try discriminate; try easy.
    + split; [intros []; exists 0; now constructor | intros (n' & D); now inversion D].
    + rewrite <- (call_means _ _ _ _ _ _ _ sig (TOp o) vs w); auto; try reflexivity; now left.
    + rewrite <- (call_means _ _ _ _ _ _ _ sig TIf vs w); auto; try reflexivity; now right.
    + rewrite <- (call_means _ _ _ _ _ _ _ sig (TExpr g ts) vs w); auto; try reflexivity; now left.
  - assert (M : forall a b, means type_of bool_of evaluate formulas st a t w -> means type_of bool_of evaluate formulas st b t w) by (intros a b; now apply closed_means).
    destruct (eval_means type_of bool_of evaluate formulas absolute_error st scalar sig t w W (Z eq_refl) O) as [E _].
    destruct t as [v|l|i n|o| |f p|g ts]; try discriminate; rewrite E; split; apply M.
Qed.
(** The value of [(g(ts...))(vs...)] is that of [g(ts(vs...)...)]. *)
Theorem C99_composition st g ts vs v : (forall l, scalar (st l)) -> Forall scalar vs ->
  head g = true -> wf scalar g -> arity (length ts) g ->
  Forall (fun t => wf scalar t /\ arity (length vs) t /\ (is_operation t = false -> arity 0 t)) ts -> existsb is_operation ts = true ->
  (has_value st (call (TExpr g ts) vs) v <-> exists ws, Forall2 (value_at st vs) ts ws /\ has_value st (call g ws) v).
Proof.
  intros S G Hg W A T O. pose proof (scalars_signature st S) as sig.
  assert (Wt : Forall (wf scalar) ts) by (eapply Forall_impl; [|exact T]; now intros t (? & ? & ?)).
  assert (At : Forall (arity (length vs)) ts) by (eapply Forall_impl; [|exact T]; now intros t (? & ? & ?)).
  assert (Wg : wf scalar (TExpr g ts)) by (cbn; repeat split; auto; now apply wf_list).
  assert (Ag : arity (length vs) (TExpr g ts)) by (cbn; split; auto; now apply arity_list).
  unfold has_value at 1, evaluates, call. rewrite (call_means type_of bool_of _ _ _ _ _ sig (TExpr g ts) vs v (or_introl O) Wg Ag G).
  assert (V : forall ws, Forall2 (value_at st vs) ts ws <-> Forall2 (means type_of bool_of evaluate formulas st vs) ts ws).
  { clear - T S G. induction ts as [|t ts IH]; intros ws; [split; intros H; inversion H; constructor|]. inversion_clear T as [|? ? (T1 & T2 & T3) T'].
    split; intros H; inversion H; subst; constructor; try (now apply IH); now apply value_at_means. }
  assert (C : forall ws, Forall2 (means type_of bool_of evaluate formulas st vs) ts ws -> (has_value st (call g ws) v <-> means type_of bool_of evaluate formulas st ws g v)).
  { intros ws H. apply (call_means _ _ _ _ _ _ _ sig g ws v); auto; [now rewrite <- (Forall2_length' _ _ _ H)|].
    eapply means_goods; eauto. }
  split.
  - intros D. apply means_expr_inv in D. destruct D as [(_ & ws & H & H') | (-> & _)]; [|discriminate].
    exists ws. split; [now apply V | now apply C].
  - intros (ws & H & H'). apply V in H. apply means_expr with ws; auto. now apply C.
Qed.
Print Assumptions C99_composition.
(** is_less_or_equal after (|l_ - r_|, 2). *)
Definition t99 : texp := TExpr is_less_or_equal [TExpr (TOp OAbs) [TOp OSubtract]; TVal (VInt 2)].
Example C99_case : head is_less_or_equal = true /\ wf scalar t99 /\ arity 2 t99 /\ is_operation t99 = true /\
  has_value (fun _ => VInt 0) (call t99 [VInt 5; VInt 7]) (VBool true) /\ has_value (fun _ => VInt 0) (call t99 [VInt 5; VInt 8]) (VBool false).
Proof. repeat split; auto; exists 30; reflexivity. Qed.
(** For ranges the overload chosen too early is another one: [r < l] and
    [l > r] differ. *)
Theorem C99_ranges_refuted : exists (l r : list Q) st,
  has_value st (call (TOp OLess) [VRange r; VRange l]) (VBool false) /\ has_value st (call (TOp OGreater) [VRange l; VRange r]) (VBool true) /\
  formulas OGreater [Some TyRange; Some TyRange] = Some (TExpr (TOp OLess) [r_; l_]).
Proof. exists [1%Q; 2%Q], [1%Q], (fun _ => VInt 0). repeat split; exists 30; reflexivity. Qed.
Print Assumptions C99_ranges_refuted.

(** C100: lazy branches, captured variables, assignment. *)
(** Of if_else only the chosen branch is evaluated. *)
Theorem C100_if_else {val ty op pol : Type} (typeof : val -> ty) truth prim formula (apply_policy : op -> pol -> option (term val op pol)) st c a b v :
  let value t v := exists k, forall k', k <= k' -> eval typeof truth prim formula apply_policy k' st t = Ok v in
  (forall w x, value c w -> truth w = Some x -> value (if x then a else b) v -> value (TExpr TIf [c; a; b]) v) /\
  (forall k, eval typeof truth prim formula apply_policy k st (TExpr TIf [c; a; b]) = Ok v ->
     exists k' w x, eval typeof truth prim formula apply_policy k' st c = Ok w /\ truth w = Some x /\
       eval typeof truth prim formula apply_policy k' st (if x then a else b) = Ok v).
Proof.
  cbv zeta. split.
  - intros w x. apply ev_cond.
  - intros [|[|k]]; [easy..|]. cbn [eval map]. cbn [resolve bind]. intros E. exists (S k).
    apply bind_Ok in E as (w & Ec & E). exists w. destruct (truth w) as [[]|] eqn:X; try discriminate; [exists true | exists false]; auto.
Qed.
Print Assumptions C100_if_else.
(** A failing branch does not matter. *)
Example C100_case : let fails : texp := TExpr (TOp OSubtract) [TVal (VBool true); TVal (VRange [])] in
  evaluates 30 (fun _ => VInt 0) fails = UB /\
  has_value (fun _ => VInt 0) (TExpr TIf [TExpr (TOp OLess) [TVal (VInt 1); TVal (VInt 2)]; TVal (VInt 7); fails]) (VInt 7).
Proof. split; [reflexivity | exists 30; reflexivity]. Qed.
(** An expression keeps the value of a variable of a cheap type at the time
    when the expression was made, and sees later changes of the others. *)
Theorem C100_capture {val ty op pol : Type} (typeof : val -> ty) truth prim formula (apply_policy : op -> pol -> option (term val op pol)) cheap st st' f ls k :
  eval typeof truth prim formula apply_policy k st' (TExpr f (map (capture typeof cheap st) ls)) =
  eval typeof truth prim formula apply_policy k st' (TExpr f (map (fun l => TVal (if cheap (typeof (st l)) then st l else st' l)) ls)).
Proof.
  destruct k as [|k]; [reflexivity|]. cbn [eval].
  replace (map (eval typeof truth prim formula apply_policy k st') (map (capture typeof cheap st) ls))
     with (map (eval typeof truth prim formula apply_policy k st') (map (fun l => TVal (if cheap (typeof (st l)) then st l else st' l)) ls)); [reflexivity|].
  rewrite !map_map. apply map_ext. intros l. unfold capture. destruct (cheap (typeof (st l))); [reflexivity|]. destruct k; reflexivity.
Qed.
Print Assumptions C100_capture.
(** [out{x} = e]: [e] is evaluated with the old value of [x]. *)
Theorem C100_assignment {val ty op pol : Type} (typeof : val -> ty) truth prim formula (apply_policy : op -> pol -> option (term val op pol)) st st' l t k :
  assign typeof truth prim formula apply_policy k st l t = Ok st' ->
  eval typeof truth prim formula apply_policy k st t = Ok (st' l) /\ forall x, x <> l -> st' x = st x.
Proof.
  unfold assign. intros E. apply bind_Ok in E as (v & E & [= <-]). rewrite Nat.eqb_refl. split; [exact E|].
  intros x N. apply Nat.eqb_neq in N. now rewrite N.
Qed.
Print Assumptions C100_assignment.
(** x = 2; squared(x) and (r == r2) before and after changes of x and r; x = 10 - x *)
Example C100_variables : let cheap ty := match ty with TyRange => false | _ => true end in
  let st := fun l => match l with 0 => VInt 2 | _ => VRange [1%Q] end in
  let st' := fun l => match l with 0 => VInt 5 | 1 => VRange [2%Q] | _ => VRange [1%Q] end in
  let e2 : texp := TExpr (TOp OEqual) (map (capture type_of cheap st) [1; 2]) in
  evaluates 30 st (TExpr (TOp OSquared) [capture type_of cheap st 0]) = Ok (VInt 4) /\
  evaluates 30 st' (TExpr (TOp OSquared) [capture type_of cheap st 0]) = Ok (VInt 4) /\
  evaluates 30 st e2 = Ok (VBool true) /\ evaluates 30 st' e2 = Ok (VBool false) /\
  (exists s, assign type_of bool_of evaluate formulas absolute_error 30 st 0 (TExpr (TOp OSubtract) [TVal (VInt 10); TRef 0]) = Ok s /\ s 0 = VInt 8).
Proof. cbv zeta. repeat split; eexists; split; reflexivity. Qed.

(** C101: comparisons and the absolute error policy. *)
Definition arith (v : value) : Prop := match v with VNum _ | VInt _ | VBool _ => True | _ => False end.
Definition num (v : value) : Q := match v with VNum q => q | VInt z => inject_Z z | VBool true => 1 | _ => 0 end.
Definition sign (x : Q) : Z := if Qlt_le_dec x 0 then (-1)%Z else if Qlt_le_dec 0 x then 1%Z else 0%Z.
(** Always gives [r] with [P r]. *)
Definition gives st (t : texp) (P : value -> Prop) : Prop := exists r, P r /\ exists k, forall k', k <= k' -> evaluates k' st t = Ok r.
Definition is_bool (P : Prop) (r : value) : Prop := exists b, r = VBool b /\ (b = true <-> P).
Lemma qlt_spec a b : qlt a b = true <-> (a < b)%Q.
Proof. unfold qlt. rewrite negb_true_iff. destruct (Qle_bool b a) eqn:E; [apply Qle_bool_iff in E | assert (~ (b <= a)%Q) by (intros H; apply Qle_bool_iff in H; congruence)]; split; intros; try easy; lra. Qed.
Ltac run := refine (ex_intro _ _ (conj _ (ex_intro _ 30 _)));
  [|intros k L; replace k with (30 + (k - 30)) by lia; reflexivity].
Lemma sub_int a b : (inject_Z (a - b) == inject_Z a - inject_Z b)%Q.
Proof. unfold Z.sub. now rewrite inject_Z_plus, inject_Z_opp. Qed.
Lemma abs_int a : (inject_Z (Z.abs a) == Qabs (inject_Z a))%Q.
Proof. reflexivity. Qed.
Ltac nums := rewrite ?sub_int, ?abs_int, ?sub_int.
(** With an absolute error [eps]: [l < r] by more than [eps]. *)
Theorem C101_is_less st eps v w : arith v -> arith w ->
  gives st (call (TTuned (TOp OLess) eps) [v; w]) (is_bool (eps < num w - num v)%Q).
Proof.
  intros A B. destruct v, w; try easy; run; (eexists; split; [reflexivity|]); rewrite qlt_spec; cbn [num]; nums; reflexivity.
Qed.
Print Assumptions C101_is_less.
Theorem C101_is_greater st eps v w : arith v -> arith w ->
  gives st (call (TTuned (TOp OGreater) eps) [v; w]) (is_bool (eps < num v - num w)%Q).
Proof.
  intros A B. destruct v, w; try easy; run; (eexists; split; [reflexivity|]); rewrite qlt_spec; cbn [num]; nums; reflexivity.
Qed.
Print Assumptions C101_is_greater.
Lemma equal_lists_spec f l : forall r, equal_lists f l r = true <->
  length l = length r /\ forall i x y, nth_error l i = Some x -> nth_error r i = Some y -> f x y = true.
Proof.
  induction l as [|a l IH]; intros [|b r]; cbn [equal_lists length].
  - split; [|easy]. intros _. split; [reflexivity|]. intros [|i] x y; discriminate.
  - split; [discriminate|]. now intros [E _].
  - split; [discriminate|]. now intros [E _].
  - rewrite andb_true_iff, IH. split.
    + intros (F & L & H). split; [now rewrite L|]. intros [|i] x y; cbn [nth_error]; [intros [= <-] [= <-]; exact F|apply H].
    + intros [L H]. split; [now apply (H 0)|]. split; [now injection L|]. intros i. apply (H (S i)).
Qed.
(** Ranges are equal element by element. *)
Theorem C101_equal_ranges st eps l r :
  gives st (call (TTuned (TOp OEqual) eps) [VRange l; VRange r])
    (is_bool (length l = length r /\ forall i x y, nth_error l i = Some x -> nth_error r i = Some y -> (Qabs (x - y) <= eps)%Q)) /\
  gives st (call (TOp OEqual) [VRange l; VRange r])
    (is_bool (length l = length r /\ forall i x y, nth_error l i = Some x -> nth_error r i = Some y -> (x == y)%Q)).
Proof.
  split; run; (eexists; split; [reflexivity|]); rewrite equal_lists_spec; cbn [close]; split; intros [L H]; (split; [exact L|]); intros i x y A B.
  - apply Qle_bool_iff. now apply (H i).
  - apply Qle_bool_iff. now apply (H i).
  - apply Qeq_bool_iff. now apply (H i).
  - apply Qeq_bool_iff. now apply (H i).
Qed.
Print Assumptions C101_equal_ranges.
Example C101_case_equal_ranges :
  has_value (fun _ => VInt 0) (call (TTuned (TOp OEqual) 1%Q) [VRange [1; 5]%Q; VRange [2; 4]%Q]) (VBool true) /\
  has_value (fun _ => VInt 0) (call (TTuned (TOp OEqual) 1%Q) [VRange [1; 5]%Q; VRange [2; 3]%Q]) (VBool false).
Proof. split; exists 30; reflexivity. Qed.
Lemma not_qlt a b : negb (qlt a b) = true <-> (b <= a)%Q.
Proof. unfold qlt. rewrite negb_involutive. apply Qle_bool_iff. Qed.
Theorem C101_is_less_or_equal st eps v w : arith v -> arith w ->
  gives st (call (TTuned is_less_or_equal eps) [v; w]) (is_bool (num v - num w <= eps)%Q).
Proof.
  intros A B. destruct v, w; try easy; run; (eexists; split; [reflexivity|]); rewrite not_qlt; cbn [num]; nums; reflexivity.
Qed.
Print Assumptions C101_is_less_or_equal.
Theorem C101_is_greater_or_equal st eps v w : arith v -> arith w ->
  gives st (call (TTuned is_greater_or_equal eps) [v; w]) (is_bool (num w - num v <= eps)%Q).
Proof.
  intros A B. destruct v, w; try easy; run; (eexists; split; [reflexivity|]); rewrite not_qlt; cbn [num]; nums; reflexivity.
Qed.
Print Assumptions C101_is_greater_or_equal.
Theorem C101_is_equal st eps v w : arith v -> arith w ->
  gives st (call (TTuned (TOp OEqual) eps) [v; w]) (is_bool (Qabs (num v - num w) <= eps)%Q).
Proof.
  intros A B. destruct v, w; try easy; run; (eexists; split; [reflexivity|]); rewrite not_qlt; cbn [num]; nums; reflexivity.
Qed.
Print Assumptions C101_is_equal.
Theorem C101_is_not_equal st eps v w : arith v -> arith w ->
  gives st (call (TTuned is_not_equal eps) [v; w]) (is_bool (eps < Qabs (num v - num w))%Q).
Proof.
  intros A B. destruct v, w; try easy; run; (eexists; split; [reflexivity|]);
    rewrite negb_true_iff, <- not_true_iff_false, not_qlt; cbn [num]; nums; split; intros; lra.
Qed.
Print Assumptions C101_is_not_equal.
(** compare3way gives 0 exactly where is_equal holds and the sign otherwise. *)
Lemma sign_lt x : (x < 0)%Q -> sign x = (-1)%Z.
Proof. intros H. unfold sign. destruct (Qlt_le_dec x 0); [reflexivity | lra]. Qed.
Lemma sign_gt x : (0 < x)%Q -> sign x = 1%Z.
Proof. intros H. unfold sign. destruct (Qlt_le_dec x 0); [lra|]. destruct (Qlt_le_dec 0 x); [reflexivity | lra]. Qed.
Lemma sign_eq x : (x == 0)%Q -> sign x = 0%Z.
Proof. intros H. unfold sign. destruct (Qlt_le_dec x 0); [lra|]. destruct (Qlt_le_dec 0 x); [lra | reflexivity]. Qed.
Theorem C101_compare3way st eps v w : arith v -> arith w -> (0 <= eps)%Q ->
  gives st (call (TTuned (TOp OCompare) eps) [v; w])
    (fun r => exists z, r = VInt z /\ ((Qabs (num v - num w) <= eps)%Q -> z = 0%Z) /\ ((eps < Qabs (num v - num w))%Q -> z = sign (num v - num w))).
Proof.
  intros A B E.
  assert (G : forall d1 d2, (d1 == num v - num w)%Q -> (d2 == num w - num v)%Q ->
    ((Qabs (num v - num w) <= eps)%Q -> (Z.b2z (qlt eps d1) - Z.b2z (qlt eps d2))%Z = 0%Z) /\
    ((eps < Qabs (num v - num w))%Q -> (Z.b2z (qlt eps d1) - Z.b2z (qlt eps d2))%Z = sign (num v - num w))).
  { intros d1 d2 H1 H2. pose proof (qlt_spec eps d1) as Q1. pose proof (qlt_spec eps d2) as Q2. split; intros H.
    - apply Qabs_Qle_condition in H. destruct (qlt eps d1); [assert (eps < d1)%Q by tauto; lra|]. destruct (qlt eps d2); [assert (eps < d2)%Q by tauto; lra|]. reflexivity.
    - assert (C : (eps < d1)%Q \/ (eps < d2)%Q) by (revert H; apply Qabs_case; intros; [left | right]; lra).
      destruct C as [C | C].
      + rewrite (proj2 Q1 C). destruct (qlt eps d2); [assert (eps < d2)%Q by tauto; lra|]. rewrite sign_gt; [reflexivity | lra].
      + rewrite (proj2 Q2 C). destruct (qlt eps d1); [assert (eps < d1)%Q by tauto; lra|]. rewrite sign_lt; [reflexivity | lra]. }
  destruct v, w; try easy; run; (eexists; split; [reflexivity|]); apply G; cbn [num]; nums; reflexivity.
Qed.
Print Assumptions C101_compare3way.
(** Without a policy. *)
Theorem C101_exact st v w : arith v -> arith w ->
  gives st (call (TOp OLess) [v; w]) (is_bool (num v < num w)%Q) /\ gives st (call (TOp OGreater) [v; w]) (is_bool (num w < num v)%Q) /\
  gives st (call is_less_or_equal [v; w]) (is_bool (num v <= num w)%Q) /\ gives st (call is_greater_or_equal [v; w]) (is_bool (num w <= num v)%Q) /\
  gives st (call (TOp OEqual) [v; w]) (is_bool (num v == num w)%Q) /\ gives st (call is_not_equal [v; w]) (is_bool (~ num v == num w)%Q) /\
  gives st (call (TOp OCompare) [v; w]) (fun r => r = VInt (sign (num v - num w))) /\
  gives st (call (TOp OSgn) [v]) (fun r => r = VInt (sign (num v))).
Proof.
  intros A B.
  assert (C : forall a b, VInt (Z.b2z (qlt b a) - Z.b2z (qlt a b)) = VInt (sign (a - b))).
  { intros a b. pose proof (qlt_spec a b) as Q1. pose proof (qlt_spec b a) as Q2. f_equal.
    destruct (qlt a b), (qlt b a); [assert (a < b)%Q by tauto; assert (b < a)%Q by tauto; lra| | |].
    - rewrite sign_lt; [reflexivity|]. assert (a < b)%Q by tauto. lra.
    - rewrite sign_gt; [reflexivity|]. assert (b < a)%Q by tauto. lra.
    - rewrite sign_eq; [reflexivity|]. assert (~ (a < b)%Q) by (rewrite <- Q1; discriminate). assert (~ (b < a)%Q) by (rewrite <- Q2; discriminate). lra. }
  assert (Z0 : forall a, sign (a - inject_Z 0) = sign a).
  { intros a. destruct (Qlt_le_dec a 0) as [L|L]; [|destruct (Qlt_le_dec 0 a) as [L'|L']].
    - rewrite !sign_lt; try reflexivity; try lra. unfold inject_Z. lra.
    - rewrite !sign_gt; try reflexivity; try lra. unfold inject_Z. lra.
    - rewrite !sign_eq; try reflexivity; try lra. unfold inject_Z. lra. }
  repeat split.
  - destruct v, w; try easy; run; (eexists; split; [reflexivity | apply qlt_spec]).
  - destruct v, w; try easy; run; (eexists; split; [reflexivity | apply qlt_spec]).
  - destruct v, w; try easy; run; (eexists; split; [reflexivity | apply not_qlt]).
  - destruct v, w; try easy; run; (eexists; split; [reflexivity | apply not_qlt]).
  - destruct v, w; try easy; run; (eexists; split; [reflexivity | apply Qeq_bool_iff]).
  - destruct v, w; try easy; run; (eexists; split; [reflexivity |]); rewrite negb_true_iff, <- not_true_iff_false, Qeq_bool_iff; reflexivity.
  - destruct v, w; try easy; run; apply C.
  - destruct v; try easy; run; cbn [num]; rewrite <- Z0; apply C.
Qed.
Print Assumptions C101_exact.
Example C101_case : arith (VInt 5) /\ arith (VNum (11 # 2)) /\
  has_value (fun _ => VInt 0) (call (TTuned (TOp OCompare) (1 # 2)) [VInt 5; VNum (11 # 2)]) (VInt 0) /\
  has_value (fun _ => VInt 0) (call (TTuned (TOp OCompare) (1 # 3)) [VInt 5; VNum (11 # 2)]) (VInt (-1)).
Proof. repeat split; exists 30; reflexivity. Qed.
(** Ranges: [l > r] is the lexicographical order of the contents; [l < r] is not: where one range
    continues the other, the longer one is less. *)
Definition same_start (l r : list Q) : Prop := Forall2 Qeq l r.
Definition differ (l r : list Q) : Prop :=
  exists p p' x y s s', l = p ++ x :: s /\ r = p' ++ y :: s' /\ same_start p p' /\ (x < y)%Q.
Definition continues (l r : list Q) : Prop := exists p x s, r = p ++ x :: s /\ same_start l p.
Lemma differ_cons x y l r : differ (x :: l) (y :: r) <-> (x < y)%Q \/ ((x == y)%Q /\ differ l r).
Proof.
  split.
  - intros ([|a p] & [|b p'] & u & v & s & s' & E1 & E2 & F & L); try (now inversion F).
    + injection E1 as -> ->. injection E2 as -> ->. now left.
    + injection E1 as -> ->. injection E2 as -> ->. inversion_clear F. right. split; [assumption|]. now exists p, p', u, v, s, s'.
  - intros [L | (E & p & p' & u & v & s & s' & -> & -> & F & L)].
    + exists [], [], x, y, l, r. repeat split; auto. constructor.
    + exists (x :: p), (y :: p'), u, v, s, s'. repeat split; auto. now constructor.
Qed.
Lemma continues_cons x y l r : continues (x :: l) (y :: r) <-> (x == y)%Q /\ continues l r.
Proof.
  split.
  - intros ([|b p] & u & s & E & F); [inversion F|]. injection E as -> ->. inversion_clear F. split; [assumption|]. now exists p, u, s.
  - intros (E & p & u & s & -> & F). exists (y :: p), u, s. split; [reflexivity | now constructor].
Qed.
Lemma differ_nil_l r : ~ differ [] r.
Proof. intros ([|a p] & p' & u & v & s & s' & E & _); discriminate. Qed.
Lemma differ_nil_r l : ~ differ l [].
Proof. intros (p & [|a p'] & u & v & s & s' & _ & E & _); discriminate. Qed.
Lemma continues_nil_r l : ~ continues l [].
Proof. intros ([|a p] & u & s & E & _); discriminate. Qed.
Lemma vector_less_spec l r : vector_less l r = true <-> differ l r \/ continues l r.
Proof.
  revert r. induction l as [|x l IH]; intros [|y r]; cbn [vector_less].
  - split; [easy|]. intros [H | H]; exfalso; [eapply differ_nil_l | eapply continues_nil_r]; eassumption.
  - split; [|easy]. intros _. right. exists [], y, r. split; [reflexivity | constructor].
  - split; [easy|]. intros [H | H]; exfalso; [eapply differ_nil_r | eapply continues_nil_r]; eassumption.
  - rewrite differ_cons, continues_cons, orb_true_iff, andb_true_iff, not_qlt, qlt_spec, IH. split.
    + intros [L | (L & [D | C])]; [now left; left| |]; (destruct (Qlt_le_dec x y); [now left; left|]);
        (assert (x == y)%Q by lra); tauto.
    + intros [[L | (E & D)] | (E & C)]; [now left| |]; right; (split; [lra | tauto]).
Qed.
Lemma lex_compare_spec l r : (lex_compare_range compare_numbers l r <? 0)%Z = true <-> differ l r \/ continues r l.
Proof.
  rewrite Z.ltb_lt. revert r. induction l as [|x l IH]; intros [|y r]; cbn [lex_compare_range].
  - split; [easy|]. intros [H | H]; exfalso; [eapply differ_nil_l | eapply continues_nil_r]; eassumption.
  - split; [easy|]. intros [H | H]; exfalso; [eapply differ_nil_l | eapply continues_nil_r]; eassumption.
  - split; [|easy]. intros _. right. exists [], x, l. split; [reflexivity | constructor].
  - cbv zeta. rewrite differ_cons, continues_cons. unfold compare_numbers at 1 3.
    pose proof (qlt_spec x y) as Q1. pose proof (qlt_spec y x) as Q2.
    destruct (qlt y x), (qlt x y); cbn [Z.b2z Z.sub Z.opp Z.add Z.eqb Z.pos_sub].
    + assert (x < y)%Q by tauto. assert (y < x)%Q by tauto. lra.
    + assert (y < x)%Q by tauto. split; [easy|]. intros [[L | (E & _)] | (E & _)]; lra.
    + assert (x < y)%Q by tauto. split; [tauto | easy].
    + assert (N1 : ~ (x < y)%Q) by (rewrite <- Q1; discriminate). assert (N2 : ~ (y < x)%Q) by (rewrite <- Q2; discriminate).
      rewrite IH. assert (x == y)%Q by lra. assert (y == x)%Q by lra. tauto.
Qed.
Theorem C101_ranges st l r :
  gives st (call (TOp OGreater) [VRange l; VRange r]) (is_bool (differ r l \/ continues r l)) /\
  gives st (call is_less_or_equal [VRange l; VRange r]) (is_bool (~ (differ r l \/ continues r l))) /\
  gives st (call (TOp OLess) [VRange l; VRange r]) (is_bool (differ l r \/ continues r l)) /\
  gives st (call is_greater_or_equal [VRange l; VRange r]) (is_bool (~ (differ l r \/ continues r l))).
Proof.
  repeat split.
  - run. eexists; split; [reflexivity | apply vector_less_spec].
  - run. eexists; split; [reflexivity|]. rewrite negb_true_iff, <- not_true_iff_false. now rewrite vector_less_spec.
  - run. eexists; split; [reflexivity|]. rewrite <- lex_compare_spec, qlt_spec, Z.ltb_lt, <- Zlt_Qlt. reflexivity.
  - run. eexists; split; [reflexivity|].
    rewrite negb_true_iff, <- not_true_iff_false, <- lex_compare_spec, qlt_spec, Z.ltb_lt, <- Zlt_Qlt. reflexivity.
Qed.
Print Assumptions C101_ranges.
Example C101_ranges_case : differ [1; 2; 5]%Q [1; 3]%Q /\ continues [1]%Q [1; 2]%Q /\ ~ continues [1; 2]%Q [1]%Q.
Proof.
  split; [|split].
  - exists [1%Q], [1%Q], 2%Q, 3%Q, [5%Q], []. repeat split; repeat constructor.
  - exists [1%Q], 2%Q, []. repeat split; repeat constructor.
  - intros C. apply continues_cons in C as [_ C]. now apply continues_nil_r in C.
Qed.
(** The policy is not applied where a formula mixes operations with values: the
    sign of 1/4 with an error of 1/2 is 1, though compare3way(1/4, 0) is 0. *)
Theorem C101_sgn_refuted : exists eps x st, (0 < x <= eps)%Q /\
  has_value st (call (TTuned (TOp OCompare) eps) [VNum x; VNum 0]) (VInt 0) /\ has_value st (call (TTuned (TOp OSgn) eps) [VNum x]) (VInt 1).
Proof. exists (1 # 2)%Q, (1 # 4)%Q, (fun _ => VInt 0). split; [split; lra|]. split; exists 30; reflexivity. Qed.
Print Assumptions C101_sgn_refuted.
(** Nor in expressions of placeholders. *)
Theorem C101_placeholders_refuted : exists eps x y st, (Qabs (x - y) <= eps)%Q /\
  has_value st (call (TTuned (TOp OEqual) eps) [VNum x; VNum y]) (VBool true) /\
  has_value st (call (TTuned (TExpr (TOp OEqual) [l_; r_]) eps) [VNum x; VNum y]) (VBool false).
Proof. exists (1 # 2)%Q, (1 # 4)%Q, 0%Q, (fun _ => VInt 0). split; [cbv; discriminate|]. split; exists 30; reflexivity. Qed.
Print Assumptions C101_placeholders_refuted.
(** Nor in the lexicographical comparison of ranges. *)
Theorem C101_ranges_refuted : exists eps x y st,
  has_value st (call (TTuned (TOp OLess) eps) [VNum x; VNum y]) (VBool false) /\
  has_value st (call (TTuned (TOp OLess) eps) [VRange [x]; VRange [y]]) (VBool true) /\
  has_value st (call (TTuned (TOp OEqual) eps) [VRange [x]; VRange [y]]) (VBool true).
Proof. exists (1 # 2)%Q, 0%Q, (1 # 2)%Q, (fun _ => VInt 0). repeat split; exists 30; reflexivity. Qed.
Print Assumptions C101_ranges_refuted.
