(** Evaluation of expressions is pointwise application. *)
From Coq Require Import ZArith QArith Qabs List Bool PeanoNat Lia.
From Verif Require Import Outcome RangeModel ExprModel.
Import ListNotations.
Local Open Scope nat_scope.

(** Induction on terms. *)
Lemma term_ind' {val op pol} (P : term val op pol -> Prop) :
  (forall v, P (TVal v)) -> (forall l, P (TRef l)) -> (forall i n, P (TArg i n)) -> (forall o, P (TOp o)) -> P TIf ->
  (forall f p, P f -> P (TTuned f p)) -> (forall f ts, P f -> Forall P ts -> P (TExpr f ts)) -> forall t, P t.
Proof.
  intros H1 H2 H3 H4 H5 H6 H7. fix IH 1. intros [v|l|i n|o| |f p|f ts]; [apply H1|apply H2|apply H3|apply H4|apply H5|apply H6, IH|].
  apply H7; [apply IH|]. induction ts; constructor; auto.
Qed.
Lemma otraverse_Ok {A B} (f : A -> outcome B) l r : otraverse f l = Ok r <-> Forall2 (fun x y => f x = Ok y) l r.
Proof.
  revert r. induction l as [|x l IH]; intros r; cbn.
  - split; [intros [= <-]; constructor | intros H; now inversion H].
  - rewrite bind_Ok. split.
    + intros (y & E & H). apply bind_Ok in H. destruct H as (r' & E' & [= <-]). constructor; [exact E | now apply IH].
    + intros H. inversion H as [|? y ? r' E E']; subst. exists y. split; [exact E|]. apply bind_Ok. exists r'. split; [now apply IH | reflexivity].
Qed.
Lemma Forall2_length' {A B} (R : A -> B -> Prop) l r : Forall2 R l r -> length l = length r.
Proof. induction 1; cbn; congruence. Qed.

Lemma Forall2_impl' {A B} (R S : A -> B -> Prop) l r : (forall x y, R x y -> S x y) -> Forall2 R l r -> Forall2 S l r.
Proof. induction 2; constructor; auto. Qed.

Section Meaning.
  Context {val ty op pol : Type}.
  Local Notation term := (term val op pol).
  Variable typeof : val -> ty.
  Variable truth : val -> option bool.
  Variable prim : op -> list val -> outcome val.
  Variable formula : op -> list (option ty) -> option term.
  Variable apply_policy : op -> pol -> option term.
  Variable st : nat -> val.
  Local Notation types vs := (map (fun v => Some (typeof v)) vs).
  Local Notation eval k := (eval typeof truth prim formula apply_policy k st).
  Local Notation resolve := (resolve formula apply_policy).

  (** ** Specification *)
  (** The operation of an expression: anything that can be called other than a
      placeholder, which returns an argument at once, and if_else. *)
  Definition head (f : term) : bool :=
    match f with TOp _ => true | TExpr _ _ => is_operation f | _ => false end.
  (** [den n vs t v]: the term [t], applied to [vs] in all places where it is
      an operation, has the value [v]; [n] is the height of the computation. *)
  Inductive den : nat -> list val -> term -> val -> Prop :=
  | d_val n vs v : den n vs (TVal v) v
  | d_ref n vs l : den n vs (TRef l) (st l)
  | d_arg n vs i m v : length vs = m -> nth_error vs i = Some v -> den n vs (TArg i m) v
  | d_prim n vs o v : formula o (types vs) = None -> prim o vs = Ok v -> den n vs (TOp o) v
  | d_formula n vs o f v : formula o (types vs) = Some f -> den n vs f v -> den (S n) vs (TOp o) v
  | d_if n c a b x : truth c = Some x -> den n [c; a; b] TIf (if x then a else b)
  | d_expr n vs g ts ws v : head g = true -> Forall2 (den n vs) ts ws -> den n ws g v -> den (S n) vs (TExpr g ts) v
  | d_cond n vs c a b w x v : den n vs c w -> truth w = Some x -> den n vs (if x then a else b) v ->
      den (S n) vs (TExpr TIf [c; a; b]) v.
  Definition means (vs : list val) (t : term) (v : val) : Prop := exists n, den n vs t v.

  (** A set of values on which the resolution for unknown types is right. *)
  Variable good : val -> Prop.
  (** Terms without policies whose values are good. *)
  Fixpoint wf (t : term) : Prop :=
    match t with
    | TVal v => good v
    | TTuned _ _ => False
    | TExpr f ts => (head f = true \/ f = TIf) /\ wf f /\ fold_right (fun t P => wf t /\ P) True ts
    | _ => True
    end.
  (** The operation [t] takes [m] arguments. *)
  Fixpoint arity (m : nat) (t : term) : Prop :=
    match t with
    | TArg i n => n = m /\ i < n
    | TExpr f ts => arity (length ts) f /\ fold_right (fun t P => arity m t /\ P) True ts
    | TIf => m = 3
    | _ => True
    end.
  Definition fits (tys : list (option ty)) (vs : list val) : Prop := tys = types vs \/ tys = map (fun _ => None) vs.
  Record signature_ok : Prop := {
    so_store l : good (st l);
    so_prim o vs v : Forall good vs -> prim o vs = Ok v -> good v;
    so_formula o tys f : formula o tys = Some f -> head f = true;
    so_wf o vs tys f : Forall good vs -> fits tys vs -> formula o tys = Some f -> wf f /\ arity (length tys) f;
    so_stable o vs f : Forall good vs -> formula o (map (fun _ => None) vs) = Some f -> formula o (types vs) = Some f;
    so_resolve o vs tys : Forall good vs -> fits tys vs ->
      exists k f, forall k', k <= k' -> resolve k' (TOp o) tys [] = Ok f }.
  Hypothesis sig : signature_ok.

  Lemma wf_list ts : fold_right (fun t P => wf t /\ P) True ts <-> Forall wf ts.
  Proof. induction ts as [|t ts IH]; cbn; [split; constructor|]. rewrite IH. split; [intros []; now constructor | intros H; now inversion H]. Qed.
  Lemma arity_list m ts : fold_right (fun t P => arity m t /\ P) True ts <-> Forall (arity m) ts.
  Proof. induction ts as [|t ts IH]; cbn; [split; constructor|]. rewrite IH. split; [intros []; now constructor | intros H; now inversion H]. Qed.
  Lemma head_operation f : head f = true -> is_operation f = true. Proof. destruct f; easy. Qed.
  Lemma den_mono : forall n m vs t v, n <= m -> den n vs t v -> den m vs t v.
  Proof.
    induction n as [n IH] using lt_wf_ind. intros m vs t v L H. inversion H; subst; try (econstructor; eauto; fail).
    - destruct m as [|m]; [lia|]. apply d_formula with f; [assumption|]. apply (IH n0); auto; lia.
    - destruct m as [|m]; [lia|]. apply d_expr with ws; [assumption | | apply (IH n0); auto; lia].
      eapply Forall2_impl'; [|eassumption]. intros. apply (IH n0); auto; lia.
    - destruct m as [|m]; [lia|]. apply d_cond with w x; [| assumption |]; apply (IH n0); auto; lia.
  Qed.
  Lemma means_list vs ts ws : Forall2 (means vs) ts ws <-> exists n, Forall2 (den n vs) ts ws.
  Proof.
    split.
    - induction 1 as [|t w ts ws (n & H) _ (m & IH)]; [exists 0; constructor|]. exists (n + m). constructor; [apply (den_mono n); auto; lia|].
      eapply Forall2_impl'; [|eassumption]. intros. apply (den_mono m); auto; lia.
    - intros (n & H). eapply Forall2_impl'; [|eassumption]. intros. now exists n.
  Qed.
  Lemma means_expr vs g ts ws v : head g = true -> Forall2 (means vs) ts ws -> means ws g v -> means vs (TExpr g ts) v.
  Proof.
    intros Hg H (m & Hm). apply means_list in H as (n & H). exists (S (n + m)). apply d_expr with ws; [auto | | apply (den_mono m); auto; lia].
    eapply Forall2_impl'; [|eassumption]. intros. apply (den_mono n); auto; lia.
  Qed.
  Lemma means_cond vs c a b w x v : means vs c w -> truth w = Some x -> means vs (if x then a else b) v -> means vs (TExpr TIf [c; a; b]) v.
  Proof. intros (n & H) T (m & Hm). exists (S (n + m)). apply d_cond with w x; auto; [apply (den_mono n) | apply (den_mono m)]; auto; lia. Qed.
  (** Inversion of the meaning of an expression. *)
  Lemma means_expr_inv vs g ts v : means vs (TExpr g ts) v ->
    (head g = true /\ exists ws, Forall2 (means vs) ts ws /\ means ws g v) \/
    (g = TIf /\ exists c a b w x, ts = [c; a; b] /\ means vs c w /\ truth w = Some x /\ means vs (if x then a else b) v).
  Proof.
    intros (n & H). inversion H; subst.
    - left. split; [assumption|]. exists ws. split; [apply means_list; eauto | now exists n0].
    - right. split; [reflexivity|]. exists c, a, b, w, x. repeat split; auto; now exists n0.
  Qed.

  Lemma den_good : forall n vs t v, den n vs t v -> wf t -> Forall good vs -> good v.
  Proof.
    induction n as [n IH] using lt_wf_ind. intros vs t v H W G. inversion H; subst.
    - exact W.
    - apply (so_store sig).
    - rewrite Forall_forall in G. apply G. eapply nth_error_In; eauto.
    - eapply (so_prim sig); eauto.
    - apply (IH n0 ltac:(lia) vs f); auto. eapply (so_wf sig); [| left; reflexivity |]; eauto.
    - inversion_clear G as [|? ? G1 G']. inversion_clear G' as [|? ? G2 G'']. inversion_clear G'' as [|? ? G3 _]. destruct x; auto.
    - cbn in W. destruct W as (_ & Wg & Wt). apply wf_list in Wt. apply (IH n0 ltac:(lia) ws g); auto.
      assert (Forall2 (fun t w => den n0 vs t w /\ wf t) ts ws) as Q.
      { clear - Wt H1. induction H1; [constructor|]. inversion_clear Wt. constructor; auto. }
      clear - Q IH G. induction Q as [|t w ts ws (D & W) _ Q]; constructor; auto. eapply (IH n0); eauto.
    - cbn in W. destruct W as (_ & _ & _ & Wa & Wb & _). apply (IH n0 ltac:(lia) vs (if x then a else b)); auto. now destruct x.
  Qed.
  Lemma means_good vs t v : means vs t v -> wf t -> Forall good vs -> good v.
  Proof. intros (n & H). now apply (den_good n vs t). Qed.
  Lemma means_goods vs ts ws : Forall2 (means vs) ts ws -> Forall wf ts -> Forall good vs -> Forall good ws.
  Proof. induction 1; intros W G; constructor; inversion_clear W; [eapply means_good; eauto | auto]. Qed.

  (** Closed terms do not depend on the arguments. *)
  Lemma closed_means t : is_operation t = false -> forall vs vs' v, means vs t v -> means vs' t v.
  Proof.
    induction t as [v|l|i n|o| |f p _|f ts _ IH] using term_ind'; intros C vs vs' w H; try discriminate.
    - destruct H as (n & H). exists n. inversion H; subst; constructor.
    - destruct H as (n & H). exists n. inversion H; subst; constructor.
    - cbn in C. assert (Q : Forall (fun t => is_operation t = false) ts).
      { clear - C. induction ts as [|t ts IHt]; cbn in C; constructor; apply orb_false_iff in C; tauto. }
      apply means_expr_inv in H. destruct H as [(Hg & ws & H & H') | (-> & c & a & b & cv & x & -> & H1 & T & H2)].
      + apply means_expr with ws; auto. clear - IH Q H. induction H; constructor; inversion_clear IH; inversion_clear Q; eauto.
      + inversion_clear IH as [|? ? I1 I']. inversion_clear I' as [|? ? I2 I'']. inversion_clear I'' as [|? ? I3 _].
        inversion_clear Q as [|? ? Q1 Q']. inversion_clear Q' as [|? ? Q2 Q'']. inversion_clear Q'' as [|? ? Q3 _].
        apply means_cond with cv x; eauto. destruct x; eauto.
  Qed.

  (** ** Overload resolution *)
  Definition okty (tys : list (option ty)) : Prop := exists vs, Forall good vs /\ fits tys vs.
  Lemma okty_none {A} (l : list A) : okty (map (fun _ => None) l).
  Proof.
    exists (map (fun _ => st 0) l). split; [|right; now rewrite map_map].
    apply Forall_map. induction l; constructor; auto. apply (so_store sig).
  Qed.
  Lemma ops_exists (ts : list term) : ts <> [] -> forallb is_operation ts = true -> existsb is_operation ts = true.
  Proof. destruct ts; cbn; [easy|]. rewrite andb_true_iff. intros _ [-> _]. reflexivity. Qed.
  Definition callable (f : term) : Prop := head f = true \/ f = TIf \/ exists i n, f = TArg i n.
  Lemma callable_operation f : callable f -> is_operation f = true.
  Proof. intros [H|[->|(i & n & ->)]]; try easy. now apply head_operation. Qed.
  Lemma operation_callable t : wf t -> is_operation t = true -> callable t.
  Proof. destruct t; cbn; try easy; intros; try (now left); try (now right; left); right; right; eauto. Qed.
  (** What the resolution of an operation looks like. *)
  Lemma resolve_shape : forall k f tys f', resolve k f tys [] = Ok f' -> wf f -> okty tys -> is_operation f = true ->
    wf f' /\ is_operation f' = true /\ (if head f then head f' = true else f' = f) /\
    (forall m, m = length tys -> arity m f -> arity m f').
  Proof.
    induction k as [|k IH]; intros f tys f' E W T O; [discriminate|]. cbn in E.
    destruct f as [v|l|i n|o| |f p|g ts]; try easy.
    - injection E as <-. now cbn.
    - destruct (formula o tys) as [f|] eqn:F; [|injection E as <-; now cbn].
      pose proof (so_formula sig _ _ _ F) as Hf. destruct T as (vs & G & T). destruct (so_wf sig _ _ _ _ G T F) as [Wf Af].
      destruct (IH _ _ _ E Wf (ex_intro _ vs (conj G T)) (head_operation _ Hf)) as (H1 & H2 & H3 & H4).
      rewrite Hf in H3. cbn [head]. repeat split; auto. intros m -> _. now apply H4.
    - injection E as <-. now cbn.
    - cbn in W. destruct W as (Hg & Wg & Wt). apply wf_list in Wt.
      destruct (forallb is_operation ts) eqn:A; [|injection E as <-; cbn [head]; rewrite O; repeat split; auto; [now apply wf_list | now destruct H0 | now destruct H0]].
      apply bind_Ok in E as (ts' & E1 & E). apply bind_Ok in E as (g' & E2 & [= <-]). apply otraverse_Ok in E1.
      assert (Og : is_operation g = true) by (destruct Hg as [Hg | ->]; [now apply head_operation | reflexivity]).
      destruct (IH _ _ _ E2 Wg (okty_none ts') Og) as (G1 & G2 & G3 & G4).
      assert (L : length ts' = length ts) by (symmetry; eapply Forall2_length'; eauto).
      assert (Q : Forall wf ts' /\ forallb is_operation ts' = true /\ (Forall (arity (length tys)) ts -> Forall (arity (length tys)) ts')).
      { clear - IH T E1 Wt A. induction E1 as [|t t' ts ts' E _ Q]; [repeat split; auto|]. cbn in A. apply andb_true_iff in A as [A1 A2].
        inversion_clear Wt as [|? ? W1 W2]. destruct (Q A2 W2) as (Q1 & Q2 & Q3). destruct (IH _ _ _ E W1 T A1) as (B1 & B2 & _ & B4).
        cbn. rewrite B2, Q2. repeat split; auto. intros X. inversion_clear X. constructor; auto. }
      destruct Q as (Q1 & Q2 & Q3).
      assert (O' : existsb is_operation ts' = true).
      { apply ops_exists; [|assumption]. intros ->. destruct ts; [discriminate O | discriminate L]. }
      cbn [wf head is_operation]. cbn in O. rewrite O, O'. repeat split; auto.
      + destruct Hg as [Hg | ->]; [rewrite Hg in G3; now left | cbn in G3; now right].
      + now apply wf_list.
      + cbn [arity]. rewrite L. apply G4; [now rewrite map_length | now destruct H0].
      + apply arity_list. subst m. apply Q3, arity_list. now destruct H0.
  Qed.
  Lemma resolve_not_if : forall k f tys, head f = true -> resolve k f tys [] <> Ok TIf.
  Proof.
    induction k as [|k IH]; intros f tys H E; [discriminate|]. cbn in E. destruct f as [v|l|i n|o| |f p|g ts]; try discriminate.
    - destruct (formula o tys) as [f|] eqn:F; [|discriminate]. eapply (IH f); eauto. eapply (so_formula sig); eauto.
    - destruct (forallb is_operation ts); [|discriminate].
      apply bind_Ok in E as (ts' & E1 & E). apply bind_Ok in E as (g' & E2 & E). discriminate.
  Qed.
  Lemma resolve_prim : forall k f tys o, resolve k f tys [] = Ok (TOp o) -> wf f -> okty tys -> formula o tys = None.
  Proof.
    induction k as [|k IH]; intros f tys o E W T; [discriminate|]. cbn in E. destruct f as [v|l|i n|o'| |f p|g ts]; try discriminate; try easy.
    - destruct (formula o' tys) as [f|] eqn:F; [|now injection E as ->]. apply (IH _ _ _ E); auto.
      destruct T as (vs & G & T). now destruct (so_wf sig _ _ _ _ G T F).
    - exfalso. destruct (forallb is_operation ts); [|discriminate].
      apply bind_Ok in E as (ts' & E1 & E). apply bind_Ok in E as (g' & E2 & E). discriminate.
  Qed.
  Lemma fits_length tys vs : fits tys vs -> length tys = length vs.
  Proof. intros [-> | ->]; now rewrite map_length. Qed.
  Lemma fits_formula o tys vs f : Forall good vs -> fits tys vs -> formula o tys = Some f -> formula o (types vs) = Some f.
  Proof. intros G [-> | ->] F; [assumption | now apply (so_stable sig)]. Qed.

  (** Resolution does not change the meaning. *)
  Lemma resolve_sound : forall k f tys f' vs v, resolve k f tys [] = Ok f' -> wf f -> is_operation f = true ->
    Forall good vs -> fits tys vs -> means vs f' v -> means vs f v.
  Proof.
    induction k as [|k IH]; intros f tys f' vs v E W O G T D; [discriminate|].
    cbn in E. destruct f as [v'|l|i n|o'| |f p|g ts]; try (injection E as <-; assumption); try easy.
    - destruct (formula o' tys) as [f|] eqn:F; [|injection E as <-; assumption].
      destruct (so_wf sig _ _ _ _ G T F) as [Wf _]. pose proof (head_operation _ (so_formula sig _ _ _ F)) as Of.
      destruct (IH _ _ _ _ _ E Wf Of G T D) as (n & H). exists (S n). apply d_formula with f; [|assumption]. eapply fits_formula; eauto.
    - cbn in W. destruct W as (Hg & Wg & Wt). apply wf_list in Wt.
      destruct (forallb is_operation ts) eqn:A; [|injection E as <-; assumption].
      apply bind_Ok in E as (ts' & E1 & E). apply bind_Ok in E as (g' & E2 & [= <-]). apply otraverse_Ok in E1.
      assert (Og : is_operation g = true) by (destruct Hg as [Hg | ->]; [now apply head_operation | reflexivity]).
      destruct (resolve_shape _ _ _ _ E2 Wg (okty_none ts') Og) as (G1 & G2 & G3 & _).
      apply means_expr_inv in D. destruct D as [(Hg' & ws & H & H') | (-> & c & a & b & cv & x & -> & H1 & X & H2)].
      + assert (Hh : head g = true) by (destruct (head g) eqn:Hh; [easy | subst g'; now rewrite Hh in Hg']).
        assert (M : Forall2 (means vs) ts ws).
        { clear - IH E1 A Wt G T H. revert ws H. induction E1 as [|t t' ts ts' E _ Q]; intros ws H; inversion H; subst; constructor;
            cbn in A; apply andb_true_iff in A as [A1 A2]; inversion_clear Wt; eauto. }
        apply means_expr with ws; auto. apply (IH _ _ _ _ _ E2); auto.
        * eapply means_goods; eauto.
        * right. apply Forall2_length' in H. revert H. clear. revert ws. induction ts'; intros [|w ws]; cbn; try easy. intros [= H]. f_equal; auto.
      + assert (g = TIf) as -> by (destruct (head g) eqn:Hh; [discriminate G3 | now subst]).
        inversion E1 as [|c0 ? cs ? Ec E1']; subst. inversion E1' as [|a0 ? as_ ? Ea E1'']; subst. inversion E1'' as [|b0 ? bs ? Eb E1''']; subst.
        inversion E1'''; subst. cbn in A. rewrite !andb_true_iff in A. destruct A as (A1 & A2 & A3 & _).
        inversion_clear Wt as [|? ? W1 Wt']. inversion_clear Wt' as [|? ? W2 Wt'']. inversion_clear Wt'' as [|? ? W3 _].
        apply means_cond with cv x; eauto. destruct x; eauto.
  Qed.
  Lemma resolve_complete : forall k f tys f' vs n v, resolve k f tys [] = Ok f' -> wf f -> is_operation f = true ->
    Forall good vs -> fits tys vs -> den n vs f v -> den n vs f' v.
  Proof.
    induction k as [|k IH]; intros f tys f' vs n v E W O G T D; [discriminate|].
    cbn in E. destruct f as [v'|l|i m|o'| |f p|g ts]; try (injection E as <-; assumption); try easy.
    - destruct (formula o' tys) as [f|] eqn:F; [|injection E as <-; assumption].
      destruct (so_wf sig _ _ _ _ G T F) as [Wf _]. pose proof (head_operation _ (so_formula sig _ _ _ F)) as Of.
      pose proof (fits_formula _ _ _ _ G T F) as F'. inversion D as [| | |? ? ? ? F2|n' ? ? f2 ? F2 D'| | |]; subst; [congruence|].
      replace f2 with f in * by congruence. apply (den_mono n'); [lia|]. eapply IH; eauto.
    - cbn in W. destruct W as (Hg & Wg & Wt). apply wf_list in Wt.
      destruct (forallb is_operation ts) eqn:A; [|injection E as <-; assumption].
      apply bind_Ok in E as (ts' & E1 & E). apply bind_Ok in E as (g' & E2 & [= <-]). apply otraverse_Ok in E1.
      assert (Og : is_operation g = true) by (destruct Hg as [Hg | ->]; [now apply head_operation | reflexivity]).
      destruct (resolve_shape _ _ _ _ E2 Wg (okty_none ts') Og) as (G1 & G2 & G3 & _).
      inversion D as [| | | | | |n' ? ? ? ws ? Hh H H'|n' ? c a b cv x ? H1 X H2]; subst.
      + rewrite Hh in G3.
        assert (M : Forall2 (den n' vs) ts' ws).
        { clear - IH E1 A Wt G T H. revert ws H. induction E1 as [|t t' ts ts' E _ Q]; intros ws H; inversion H; subst; constructor;
            cbn in A; apply andb_true_iff in A as [A1 A2]; inversion_clear Wt; eauto. }
        apply d_expr with ws; auto. apply (IH _ _ _ _ _ _ E2); auto.
        * apply (means_goods vs ts); auto. apply means_list. now exists n'.
        * right. apply Forall2_length' in M. revert M. clear. revert ws. induction ts'; intros [|w ws]; cbn; try easy. intros [= H]. f_equal; auto.
      + cbn in G3. subst g'.
        inversion E1 as [|? c' ? cs Ec E1']; subst. inversion E1' as [|? a' ? as_ Ea E1'']; subst. inversion E1'' as [|? b' ? bs Eb E1''']; subst.
        inversion E1'''; subst. cbn in A. rewrite !andb_true_iff in A. destruct A as (A1 & A2 & A3 & _).
        inversion_clear Wt as [|? ? W1 Wt']. inversion_clear Wt' as [|? ? W2 Wt'']. inversion_clear Wt'' as [|? ? W3 _].
        apply d_cond with cv x; eauto. destruct x; eauto.
  Qed.
  (** Passing the arguments on. *)
  Lemma pass_list (vs : list val) (ts : list term) : (fix go l := match l with [] => Ok [] | x :: l => do y <- pass x vs; do r <- go l; Ok (y :: r) end) ts
    = otraverse (fun t => pass t vs) ts.
  Proof. reflexivity. Qed.
  Lemma vals_mean vs0 vs ws : Forall2 (means vs0) (map TVal vs) ws -> ws = vs.
  Proof.
    revert ws. induction vs as [|v vs IH]; intros ws H; inversion H as [|? w ? ws' (n & D)]; subst; [easy|]. inversion D; subst. f_equal. auto.
  Qed.
  Lemma vals_wf vs : Forall good vs -> Forall wf (map TVal vs).
  Proof. intros H. now apply Forall_map. Qed.
  Lemma vals_closed vs : existsb is_operation (map (@TVal val op pol) vs) = false.
  Proof. now induction vs. Qed.
  Lemma pass_sound : forall t vs t', pass t vs = Ok t' -> wf t -> Forall good vs ->
    is_operation t' = false /\ wf t' /\ forall v, means [] t' v -> means vs t v.
  Proof.
    induction t as [v|l|i n|o| |f p _|f ts _ IH] using term_ind'; intros vs t' E W G; cbn in E.
    - injection E as <-. repeat split; auto. intros v'. now apply (closed_means (TVal v)).
    - injection E as <-. repeat split; auto. intros v'. now apply (closed_means (TRef l)).
    - destruct (length vs =? n) eqn:L; [|discriminate]. apply Nat.eqb_eq in L. destruct (nth_error vs i) as [v|] eqn:N; [|discriminate].
      injection E as <-. repeat split.
      + rewrite Forall_forall in G. apply G. eapply nth_error_In; eauto.
      + intros w (m & D). inversion D; subst. exists 0. now constructor.
    - injection E as <-. repeat split; [apply vals_closed | now left | now apply wf_list, vals_wf |].
      intros v D. apply means_expr_inv in D. destruct D as [(_ & ws & H & H') | (H & _)]; [|discriminate].
      apply vals_mean in H. now subst.
    - injection E as <-. repeat split; [apply vals_closed | now right | now apply wf_list, vals_wf |].
      intros v D. apply means_expr_inv in D. destruct D as [(H & _) | (_ & c & a & b & w & x & Q & H1 & X & H2)]; [discriminate|].
      destruct vs as [|c' [|a' [|b' [|]]]]; try discriminate. cbn in Q. injection Q as <- <- <-.
      destruct H1 as (n1 & H1). inversion H1; subst. destruct H2 as (n2 & H2). exists 0.
      replace v with (if x then a' else b') by (destruct x; inversion H2; subst; reflexivity). now constructor.
    - easy.
    - cbn in W. destruct W as (Hg & Wg & Wt). apply wf_list in Wt.
      destruct (existsb is_operation ts) eqn:A.
      + rewrite pass_list in E. apply bind_Ok in E as (ts' & E & [= <-]). apply otraverse_Ok in E.
        assert (Q : existsb is_operation ts' = false /\ Forall wf ts' /\ forall ws, Forall2 (means []) ts' ws -> Forall2 (means vs) ts ws).
        { clear - E IH Wt G. induction E as [|t t' ts ts' E _ Q]; [split; [easy|]; split; [easy|]; intros ws H; inversion H; constructor|].
          inversion_clear IH as [|? ? I1 I2]. inversion_clear Wt as [|? ? W1 W2]. destruct (Q I2 W2) as (Q1 & Q2 & Q3).
          destruct (I1 _ _ E W1 G) as (P1 & P2 & P3). cbn. rewrite P1, Q1. repeat split; auto.
          intros ws H. inversion H; subst. constructor; auto. }
        destruct Q as (Q1 & Q2 & Q3). repeat split; auto; [now apply wf_list|].
        intros v D. apply means_expr_inv in D. destruct D as [(Hg' & ws & H & H') | (-> & c & a & b & cv & x & -> & H1 & X & H2)].
        * apply means_expr with ws; auto.
        * inversion E as [|c0 ? cs ? Ec E1']; subst. inversion E1' as [|a0 ? as_ ? Ea E1'']; subst. inversion E1'' as [|b0 ? bs ? Eb E1''']; subst.
          inversion E1'''; subst. inversion_clear IH as [|? ? I1 I']. inversion_clear I' as [|? ? I2 I'']. inversion_clear I'' as [|? ? I3 _].
          inversion_clear Wt as [|? ? W1 Wt']. inversion_clear Wt' as [|? ? W2 Wt'']. inversion_clear Wt'' as [|? ? W3 _].
          apply means_cond with cv x; auto; [now apply (I1 _ _ Ec W1 G)|]. destruct x; [now apply (I2 _ _ Ea W2 G) | now apply (I3 _ _ Eb W3 G)].
      + injection E as <-. repeat split; auto; [now apply wf_list|]. intros v. now apply (closed_means (TExpr f ts)).
  Qed.
  (** ** Soundness *)
  Lemma goods_fits (os : list (outcome val)) vs : Forall2 (fun x y => x = Ok y) os vs -> map (type_of_result typeof) os = types vs.
  Proof. induction 1; cbn; subst; [easy|]. cbn. now f_equal. Qed.
  Theorem eval_sound : forall k t v, wf t -> is_operation t = false -> eval k t = Ok v -> means [] t v.
  Proof.
    induction k as [|k IH]; intros t v W C E; [discriminate|]. destruct t as [v'|l|i n|o| |f p|f ts]; try discriminate.
    - injection E as <-. exists 0. constructor.
    - injection E as <-. exists 0. constructor.
    - cbn [ExprModel.eval] in E. apply bind_Ok in E as (f' & R & E). cbn in W. destruct W as (Hg & Wg & Wt). apply wf_list in Wt. cbn in C.
      assert (Og : is_operation f = true) by (destruct Hg as [Hg | ->]; [now apply head_operation | reflexivity]).
      assert (V : forall ts, Forall wf ts -> existsb is_operation ts = false -> forall vs, otraverse (fun x => x) (map (eval k) ts) = Ok vs ->
        Forall2 (means []) ts vs /\ map (type_of_result typeof) (map (eval k) ts) = types vs).
      { clear - IH. intros ts W C vs E. apply otraverse_Ok in E. split; [|now apply goods_fits].
        revert vs E. induction ts as [|t ts Q]; intros vs E; inversion E; subst; constructor; cbn in C; apply orb_false_iff in C as [C1 C2];
          inversion_clear W; auto. }
      destruct f' as [v'|l|i n|o| |f1 p|g ts1]; try discriminate.
      + apply bind_Ok in E as (vs & E1 & E). destruct (V ts Wt C vs E1) as (M & T). rewrite T in R.
        assert (G : Forall good vs) by (eapply means_goods; eauto).
        assert (K : okty (types vs)) by (exists vs; split; [assumption | now left]).
        assert (D : means vs (TOp o) v) by (exists 0; constructor; [eapply resolve_prim; eauto | assumption]).
        destruct Hg as [Hg | ->]; [|destruct k; [discriminate R | discriminate R]].
        apply means_expr with vs; auto. eapply resolve_sound; eauto. now left.
      + destruct Hg as [Hg | ->].
        * exfalso. destruct ts as [|c [|a [|b [|]]]]; try discriminate E.
          eapply resolve_not_if; eauto.
        * destruct ts as [|c [|a [|b [|]]]]; try discriminate E. cbn in E. apply bind_Ok in E as (cv & Ec & E).
          inversion_clear Wt as [|? ? W1 Wt']. inversion_clear Wt' as [|? ? W2 Wt'']. inversion_clear Wt'' as [|? ? W3 _].
          cbn in C. rewrite !orb_false_iff in C. destruct C as (C1 & C2 & C3 & _).
          destruct (truth cv) as [x|] eqn:X; [|discriminate].
          apply means_cond with cv x; auto. destruct x; auto.
      + destruct (is_operation (TExpr g ts1)) eqn:O1; [|discriminate].
        apply bind_Ok in E as (vs & E1 & E). apply bind_Ok in E as (t' & P & E). destruct (V ts Wt C vs E1) as (M & T). rewrite T in R.
        assert (G : Forall good vs) by (eapply means_goods; eauto).
        assert (K : okty (types vs)) by (exists vs; split; [assumption | now left]).
        destruct (resolve_shape _ _ _ _ R Wg K Og) as (W1 & _ & H & _).
        destruct (pass_sound _ _ _ P W1 G) as (P1 & P2 & P3).
        destruct Hg as [Hg | ->]; [|discriminate H].
        apply means_expr with vs; auto. eapply resolve_sound; eauto. now left.
  Qed.

  (** ** Completeness *)
  Definition ev (t : term) (v : val) : Prop := exists k, forall k', k <= k' -> eval k' t = Ok v.
  Lemma ev_list ts vs : Forall2 ev ts vs -> exists k, forall k', k <= k' -> map (eval k') ts = map Ok vs.
  Proof.
    induction 1 as [|t v ts vs (k & H) _ (k2 & IH)]; [now exists 0|]. exists (k + k2). intros k' L. cbn. rewrite H, IH by lia. reflexivity.
  Qed.
  Lemma traverse_ok (vs : list val) : otraverse (fun x => x) (map Ok vs) = Ok vs.
  Proof. apply otraverse_Ok. induction vs; constructor; auto. Qed.
  Lemma types_ok (vs : list val) : map (type_of_result typeof) (map Ok vs) = types vs.
  Proof. now rewrite map_map. Qed.
  Lemma closed_pass (t : term) vs : is_operation t = false -> pass t vs = Ok t.
  Proof. destruct t; cbn; try easy. now intros ->. Qed.
  Lemma pass_total : forall t vs, wf t -> arity (length vs) t -> exists t', pass t vs = Ok t'.
  Proof.
    induction t as [v|l|i n|o| |f p _|f ts _ IH] using term_ind'; intros vs W A; cbn in *; eauto.
    - destruct A as [-> A]. rewrite Nat.eqb_refl. destruct (nth_error vs i) eqn:N; eauto. apply nth_error_None in N. lia.
    - destruct W as (_ & _ & W). destruct A as (_ & A). apply wf_list in W. apply arity_list in A.
      destruct (existsb is_operation ts); eauto. rewrite pass_list.
      assert (exists ts', otraverse (fun t => pass t vs) ts = Ok ts') as (ts' & ->); [|cbn; eauto].
      induction ts as [|t ts Q]; [cbn; eauto|]. inversion_clear IH. inversion_clear W. inversion_clear A.
      cbn. destruct (H vs) as (t' & ->); auto. cbn. destruct Q as (ts' & ->); auto. cbn. eauto.
  Qed.
  Lemma resolve_total : forall f tys, wf f -> is_operation f = true -> okty tys ->
    exists k f', forall k', k <= k' -> resolve k' f tys [] = Ok f'.
  Proof.
    induction f as [v|l|i n|o| |f p _|g ts IHg IH] using term_ind'; intros tys W O K; try easy.
    - exists 1, (TArg i n). intros [|k'] L; [lia | reflexivity].
    - destruct K as (vs & G & T). apply (so_resolve sig o vs tys G T).
    - exists 1, TIf. intros [|k'] L; [lia | reflexivity].
    - destruct (forallb is_operation ts) eqn:A.
      + cbn in W. destruct W as (Hg & Wg & Wt). apply wf_list in Wt.
        assert (Og : is_operation g = true) by (destruct Hg as [Hg | ->]; [now apply head_operation | reflexivity]).
        assert (exists k ts', forall k', k <= k' -> otraverse (fun t => resolve k' t tys []) ts = Ok ts') as (k1 & ts' & H1).
        { clear - IH Wt A K. induction ts as [|t ts Q]; [now exists 0, []|]. inversion_clear IH as [|? ? I1 I2]. inversion_clear Wt as [|? ? W1 W2].
          cbn in A. apply andb_true_iff in A as [A1 A2]. destruct (I1 tys W1 A1 K) as (k1 & t' & R1). destruct (Q I2 W2 A2) as (k2 & ts' & R2).
          exists (k1 + k2), (t' :: ts'). intros k' L. cbn. rewrite R1, R2 by lia. reflexivity. }
        destruct (IHg (map (fun _ => None) ts') Wg Og (okty_none ts')) as (k2 & g' & H2).
        exists (S (k1 + k2)), (TExpr g' ts'). intros [|k'] L; [lia|]. cbn. rewrite A, H1 by lia. cbn. rewrite H2 by lia. reflexivity.
      + exists 1, (TExpr g ts). intros [|k'] L; [lia|]. cbn. now rewrite A.
  Qed.
  Definition calls n := forall f vs v ts, head f = true -> wf f -> arity (length vs) f -> Forall good vs -> den n vs f v -> Forall2 ev ts vs -> ev (TExpr f ts) v.
  Definition passes n := forall t vs v, wf t -> arity (length vs) t -> Forall good vs -> den n vs t v -> exists t', pass t vs = Ok t' /\ ev t' v.
  Lemma ev_cond c a b w x v : ev c w -> truth w = Some x -> ev (if x then a else b) v -> ev (TExpr TIf [c; a; b]) v.
  Proof.
    intros (k1 & H1) X (k2 & H2). exists (S (S (k1 + k2))). intros [|k'] L; [lia|]. cbn [ExprModel.eval map].
    destruct k' as [|k']; [lia|]. cbn [ExprModel.resolve bind]. rewrite H1 by lia. cbn [bind]. rewrite X. destruct x; apply H2; lia.
  Qed.
  Lemma step n g ts vs v : calls n -> passes n -> wf (TExpr g ts) -> arity (length vs) (TExpr g ts) -> Forall good vs ->
    den (S n) vs (TExpr g ts) v -> exists t', pass (TExpr g ts) vs = Ok t' /\ ev t' v.
  Proof.
    intros HC HP W A G D. cbn in W, A. destruct W as (Hg & Wg & Wt). destruct A as (Ag & At). apply wf_list in Wt. apply arity_list in At.
    assert (L : forall ts ws, Forall wf ts -> Forall (arity (length vs)) ts -> Forall2 (den n vs) ts ws ->
      exists ts', otraverse (fun t => pass t vs) ts = Ok ts' /\ Forall2 ev ts' ws).
    { clear - HP G. intros ts ws W A D. induction D as [|t w ts ws D _ Q]; [exists []; split; [reflexivity | constructor]|].
      inversion_clear W. inversion_clear A. destruct Q as (ts' & E & F); auto. destruct (HP t vs w) as (t' & E' & F'); auto.
      exists (t' :: ts'). split; [cbn; rewrite E'; cbn; now rewrite E | now constructor]. }
    assert (P : forall ts', otraverse (fun t => pass t vs) ts = Ok ts' -> pass (TExpr g ts) vs = Ok (TExpr g ts')).
    { intros ts' E. cbn [pass]. rewrite pass_list, E. cbn. destruct (existsb is_operation ts) eqn:O; [reflexivity|].
      f_equal. f_equal. apply otraverse_Ok in E. clear - E O. induction E as [|t t' ts ts' E _ Q]; [easy|].
      cbn in O. apply orb_false_iff in O as [O1 O2]. rewrite closed_pass in E by assumption. injection E as <-. f_equal. auto. }
    inversion D as [| | | | | |n' ? ? ? ws ? Hh H H'|n' ? c a b cv x ? H1 X H2]; subst.
    - destruct (L ts ws Wt At H) as (ts' & E & F). exists (TExpr g ts'). split; [now apply P|].
      apply (HC g ws); auto.
      + apply Forall2_length' in H. now rewrite <- H.
      + apply (means_goods vs ts); auto. apply means_list. now exists n.
    - inversion_clear Wt as [|? ? W1 Wt']. inversion_clear Wt' as [|? ? W2 Wt'']. inversion_clear Wt'' as [|? ? W3 _].
      inversion_clear At as [|? ? A1 At']. inversion_clear At' as [|? ? A2 At'']. inversion_clear At'' as [|? ? A3 _].
      destruct (HP c vs cv) as (c' & Ec & Vc); auto. destruct (pass_total a vs W2 A2) as (a' & Ea). destruct (pass_total b vs W3 A3) as (b' & Eb).
      exists (TExpr TIf [c'; a'; b']). split; [apply P; cbn; rewrite Ec; cbn; rewrite Ea; cbn; now rewrite Eb|].
      apply ev_cond with cv x; auto. destruct x; [destruct (HP a vs v) as (t' & E & V) | destruct (HP b vs v) as (t' & E & V)]; auto; congruence.
  Qed.
  Lemma ev_val v : ev (TVal v) v.
  Proof. exists 1. intros [|k] L; [lia | reflexivity]. Qed.
  Lemma both : forall n, calls n /\ passes n.
  Proof.
    induction n as [n IH] using lt_wf_ind.
    assert (C : calls n).
    { intros f vs v ts Hf W A G D V. destruct (ev_list ts vs V) as (k1 & H1).
      assert (K : okty (types vs)) by (exists vs; split; [assumption | now left]).
      pose proof (head_operation _ Hf) as O. destruct (resolve_total f (types vs) W O K) as (k2 & f' & R).
      pose proof (R k2 (le_n _)) as R0. destruct (resolve_shape _ _ _ _ R0 W K O) as (W' & O' & Hf' & A'). rewrite Hf in Hf'.
      specialize (A' (length vs) ltac:(now rewrite map_length) A).
      pose proof (resolve_complete _ _ _ _ _ _ _ R0 W O G (or_introl eq_refl) D) as D'.
      destruct f' as [| | |o| | |g ts1]; try discriminate Hf'.
      - pose proof (resolve_prim _ _ _ _ R0 W K) as N. inversion D' as [| | |? ? ? ? N' P|? ? ? ? ? N'| | |]; subst; [|congruence].
        exists (S (k1 + k2)). intros [|k'] L; [lia|]. cbn [ExprModel.eval]. rewrite H1, types_ok, R by lia. cbn. now rewrite traverse_ok.
      - assert (exists n', n = S n') as (n' & ->) by (inversion D'; eauto).
        destruct (IH n' ltac:(lia)) as (HC & HP). destruct (step n' g ts1 vs v HC HP W' A' G D') as (t' & E & (k3 & V3)).
        exists (S (k1 + k2 + k3)). intros [|k'] L; [lia|]. cbn [ExprModel.eval]. rewrite H1, types_ok, R by lia. cbn [bind].
        rewrite O', traverse_ok. cbn [bind]. rewrite E. cbn [bind]. apply V3. lia. }
    split; [exact C|]. intros t vs v W A G D. destruct t as [v'|l|i m|o| |f p|g ts].
    - exists (TVal v'). split; [reflexivity|]. inversion D; subst. apply ev_val.
    - exists (TRef l). split; [reflexivity|]. inversion D; subst. exists 1. intros [|k] L; [lia | reflexivity].
    - inversion D; subst. exists (TVal v). split; [|apply ev_val]. cbn. rewrite Nat.eqb_refl.
      match goal with H : nth_error _ _ = _ |- _ => now rewrite H end.
    - exists (TExpr (TOp o) (map TVal vs)). split; [reflexivity|]. apply (C (TOp o) vs); auto.
      clear. induction vs; constructor; auto using ev_val.
    - inversion D; subst. exists (TExpr TIf (map TVal [c; a; b])). split; [reflexivity|].
      apply ev_cond with c x; auto using ev_val. destruct x; apply ev_val.
    - easy.
    - assert (exists n', n = S n') as (n' & ->) by (inversion D; eauto).
      destruct (IH n' ltac:(lia)) as (HC & HP). now apply (step n').
  Qed.
  Theorem eval_complete t v : wf t -> arity 0 t -> is_operation t = false -> means [] t v -> ev t v.
  Proof.
    intros W A C (n & D). destruct (proj2 (both n) t [] v W A (Forall_nil _) D) as (t' & E & V).
    rewrite closed_pass in E by assumption. now injection E as <-.
  Qed.
  (** The two directions together. *)
  Theorem eval_means t v : wf t -> arity 0 t -> is_operation t = false ->
    ((exists k, eval k t = Ok v) <-> means [] t v) /\ (means [] t v -> exists k, forall k', k <= k' -> eval k' t = Ok v).
  Proof.
    intros W A C. assert (Q : means [] t v -> ev t v) by now apply eval_complete. split; [|exact Q]. split.
    - intros (k & E). now apply (eval_sound k).
    - intros (k & H)%Q. exists k. apply H. lia.
  Qed.
  Theorem call_means f vs v : head f = true \/ f = TIf -> wf f -> arity (length vs) f -> Forall good vs ->
    ((exists k, eval k (TExpr f (map TVal vs)) = Ok v) <-> means vs f v).
  Proof.
    intros Hf W A G.
    assert (W' : wf (TExpr f (map TVal vs))) by (cbn; repeat split; auto; now apply wf_list, vals_wf).
    assert (A' : arity 0 (TExpr f (map TVal vs))).
    { cbn. rewrite map_length. split; [assumption|]. apply arity_list. clear. induction vs; constructor; cbn; auto. }
    rewrite (proj1 (eval_means _ v W' A' (vals_closed vs))). split.
    - intros D. apply means_expr_inv in D. destruct D as [(_ & ws & H & H') | (-> & c & a & b & w & x & Q & H1 & X & H2)].
      + apply vals_mean in H. now subst.
      + destruct vs as [|c' [|a' [|b' [|]]]]; try discriminate. cbn in Q. injection Q as <- <- <-.
        destruct H1 as (n1 & H1). inversion H1; subst. destruct H2 as (n2 & H2). exists 0.
        replace v with (if x then a' else b') by (destruct x; inversion H2; subst; reflexivity). now constructor.
    - intros D. destruct Hf as [Hf | ->].
      + apply means_expr with vs; auto. clear. induction vs; constructor; auto. exists 0. constructor.
      + destruct D as (n & D). inversion D; subst. apply means_cond with c x; auto; [exists 0; constructor|].
        destruct x; exists 0; constructor.
  Qed.
  Lemma den_det : forall n m vs t v w, den n vs t v -> den m vs t w -> v = w.
  Proof.
    induction n as [n IH] using lt_wf_ind. intros m vs t v w D D'.
    inversion D as [| | | | | |n' ? ? ? ws ? Hh H H'|n' ? c a b cv x ? H1 X H2]; subst; inversion D' as [| | | | | |m' ? ? ? ws' ? Hh2 H3 H3'|m' ? c2 a2 b2 cv2 x2 ? H4 X2 H5];
      subst; try congruence; try discriminate.
    - match goal with H : formula _ _ = Some f, H' : formula _ _ = Some f0 |- _ => replace f0 with f in * by congruence end. eapply (IH n0); eauto.
    - match goal with H : truth _ = Some x, H' : truth _ = Some x0 |- _ => replace x0 with x in * by congruence end. reflexivity.
    - assert (ws = ws') as ->.
      { clear - H H3 IH. revert ws' H3. induction H as [|t w ts ws D _ Q]; intros ws' H3; inversion H3; subst; [easy|].
        f_equal; [eapply (IH n'); eauto | auto]. }
      eapply (IH n'); eauto.
    - assert (cv = cv2) as -> by (eapply (IH n'); eauto). replace x2 with x in * by congruence. eapply (IH n'); eauto.
  Qed.
  Theorem means_unique vs t v w : means vs t v -> means vs t w -> v = w.
  Proof. intros (n & D) (m & D'). eapply den_det; eauto. Qed.
End Meaning.
