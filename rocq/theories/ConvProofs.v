(** Proofs about conversions. *)
From Coq Require Import ZArith Bool List Lia.
From Verif Require Import Outcome IntTypes ConvModel ConvSpec.
Import ListNotations.
Local Open Scope Z_scope.

Scheme has_ty_mind := Induction for has_ty Sort Prop
  with has_tys_mind := Induction for has_tys Sort Prop.
Scheme Elems_mind := Induction for Elems Sort Prop
  with Elemss_mind := Induction for Elemss Sort Prop.
Combined Scheme Elems_both from Elems_mind, Elemss_mind.
Combined Scheme has_ty_both from has_ty_mind, has_tys_mind.

Section TyInd.
  Variable P : ty -> Prop.
  Hypothesis hint : forall t, P (TInt t).
  Hypothesis hconst : forall t c, P (TConst t c).
  Hypothesis htup : forall ts, Forall P ts -> P (TTup ts).
  Hypothesis hvec : forall t, P t -> P (TVec t).
  Hypothesis harr : forall n t, P t -> P (TArr n t).
  Fixpoint ty_ind' (t : ty) : P t :=
    match t with
    | TInt t => hint t
    | TConst t c => hconst t c
    | TTup ts => htup ts ((fix go ts : Forall P ts :=
                             match ts with [] => Forall_nil P | t :: ts => Forall_cons t (ty_ind' t) (go ts) end) ts)
    | TVec t => hvec t (ty_ind' t)
    | TArr n t => harr n t (ty_ind' t)
    end.
End TyInd.

Lemma ity_eqb_eq a b : ity_eqb a b = true -> a = b.
Proof.
  unfold ity_eqb. destruct a as [x s], b as [y t]. cbn. intro H.
  apply andb_true_iff in H as [H1 H2]. apply Z.eqb_eq in H1. apply eqb_prop in H2. congruence.
Qed.
Lemma ity_eqb_refl a : ity_eqb a a = true.
Proof. unfold ity_eqb. now rewrite Z.eqb_refl, eqb_reflx. Qed.

Lemma ty_eqb_eq a : forall b, ty_eqb a b = true -> a = b.
Proof.
  induction a as [t | t c | ts IH | t IH | n t IH] using ty_ind'; intros [s | s d | ss | s | m s] H; cbn in H; try discriminate.
  - f_equal. now apply ity_eqb_eq.
  - apply andb_true_iff in H as [H1 H2]. apply ity_eqb_eq in H1. apply Z.eqb_eq in H2. congruence.
  - f_equal. revert ss H. induction IH as [|x l Hx _ IHl]; intros [|y ss] H; cbn in H; try discriminate; [reflexivity|].
    apply andb_true_iff in H as [H1 H2]. f_equal; auto.
  - f_equal. auto.
  - apply andb_true_iff in H as [H1 H2]. apply Nat.eqb_eq in H1. f_equal; auto.
Qed.
Lemma ty_eqb_refl a : ty_eqb a a = true.
Proof.
  induction a as [t | t c | ts IH | t IH | n t IH] using ty_ind'; cbn.
  - apply ity_eqb_refl.
  - now rewrite ity_eqb_refl, Z.eqb_refl.
  - induction IH as [|x l Hx _ IHl]; cbn; [reflexivity|]. now rewrite Hx.
  - assumption.
  - now rewrite Nat.eqb_refl.
Qed.

(** * The specification *)
Lemma has_tys_length ss vs : has_tys ss vs -> length ss = length vs.
Proof. induction 1; cbn; congruence. Qed.
Lemma elem_tys_length T n ts : elem_tys T n = Some ts -> length ts = n.
Proof.
  destruct T; cbn; try discriminate.
  - destruct (Nat.eqb_spec (length ts0) n); congruence.
  - intros [= <-]. apply repeat_length.
  - destruct (Nat.eqb_spec n0 n); [|discriminate]. intros [= <-]. apply repeat_length.
Qed.

Lemma Elems_det :
  (forall T S v r, Elems T S v r -> forall r', Elems T S v r' -> r = r') /\
  (forall ts ss vs rs, Elemss ts ss vs rs -> forall rs', Elemss ts ss vs rs' -> rs = rs').
Proof.
  apply Elems_both.
  - intros t s z r' H. inversion H; subst; [reflexivity | discriminate].
  - intros t s c r' H. inversion H; subst; [reflexivity | discriminate].
  - intros t s c r' H. inversion H; subst; [reflexivity | discriminate].
  - intros t s c r' H. inversion H; subst; [reflexivity | discriminate].
  - intros T S t v r HS HT _ IH r' H. inversion H; subst; try discriminate.
    + assert (t0 = t) by congruence. subst. now rewrite (IH _ H2).
    + destruct S; discriminate.
  - intros T S ts ss vs rs HT HS _ IH r' H. inversion H; subst; try (destruct S; discriminate).
    assert (ts0 = ts) by congruence. assert (ss0 = ss) by congruence. subst. f_equal. auto.
  - intros rs' H. now inversion H.
  - intros t ts s ss v vs r rs _ IH _ IHs rs' H. inversion H; subst. f_equal; auto.
Qed.

Lemma Elems_refl :
  (forall S v, has_ty S v -> Elems S S v v) /\
  (forall ss vs, has_tys ss vs -> Elemss ss ss vs vs).
Proof.
  apply has_ty_both.
  - intros t z Hb Hz. pose proof (E_int t t z) as H. now rewrite wrap_id in H.
  - intros t c _ _. constructor.
  - intros S vs ss HS _ IH. now apply E_seq with ss ss.
  - constructor.
  - intros. now constructor.
Qed.

Lemma to_int_res t S f v : to_int t S = Some f -> has_ty S v -> exists r, f v = Ok r /\ Elems (TInt t) S v r.
Proof.
  unfold to_int. destruct (scalar S) eqn:E; [|discriminate]. intros [= <-] H. destruct S; try discriminate.
  - inversion H; subst; [|discriminate]. eexists. split; [reflexivity|]. constructor.
  - inversion H; subst; [|discriminate]. eexists. split; [reflexivity|]. constructor.
Qed.
Lemma to_int_some t S : scalar S = true -> exists f, to_int t S = Some f.
Proof. unfold to_int. intros ->. eauto. Qed.

(** * Implicit conversions of numbers, assignment *)
Lemma implicit_scalar S : scalar S = true -> forall T f v,
  direct false T S = Some f -> has_ty S v -> exists r, f v = Ok r /\ Elems T S v r.
Proof.
  intros HS T. induction T as [t | t c | ts IH | T' IH | n T' IH] using ty_ind'; intros f v H Hv;
    cbn [direct] in H; (destruct (ty_eqb _ S) eqn:E;
      [apply ty_eqb_eq in E; injection H as <-; exists v; split; [reflexivity|]; rewrite E; now apply Elems_refl |]).
  - eapply to_int_res; eauto.
  - discriminate.
  - destruct ts as [|t [|t2 ts]].
    + destruct S; discriminate.
    + destruct (direct false t S) as [g|] eqn:Eg.
      * injection H as <-. inversion IH; subst. destruct (H1 g v Eg Hv) as (r & Er & Hr).
        exists (VSeq [r]). rewrite Er. cbn. split; [reflexivity|]. now apply E_wrap with t.
      * destruct S; discriminate.
    + destruct S; discriminate.
  - discriminate.
  - discriminate.
Qed.

Definition okres (f : run) (T S : ty) (v : val) : Prop := exists r, f v = Ok r /\ Elems T S v r.

Inductive okress : list run -> list ty -> list ty -> list val -> Prop :=
| O_nil : okress [] [] [] []
| O_cons f fs t ts s ss v vs : okres f t s v -> okress fs ts ss vs -> okress (f :: fs) (t :: ts) (s :: ss) (v :: vs).

Lemma okress_run fs ts ss vs : okress fs ts ss vs -> exists rs, run_all fs vs = Ok rs /\ Elemss ts ss vs rs.
Proof.
  induction 1 as [| f fs t ts s ss v vs (r & Er & Hr) _ (rs & Ers & Hrs)]; cbn.
  - exists []. split; [reflexivity | constructor].
  - exists (r :: rs). rewrite Er. cbn. rewrite Ers. split; [reflexivity | now constructor].
Qed.

Lemma okress_each f T S vs : (forall v, In v vs -> okres f T S v) ->
  okress (map (fun _ => f) vs) (repeat T (length vs)) (repeat S (length vs)) vs.
Proof.
  induction vs as [|v vs IH]; intro H; cbn; constructor.
  - apply H. now left.
  - apply IH. intros w Hw. apply H. now right.
Qed.

Lemma has_tys_repeat S n vs : has_tys (repeat S n) vs -> forall v, In v vs -> has_ty S v.
Proof.
  remember (repeat S n) as ss. intro H. revert n Heqss.
  induction H as [|s ss v vs Hv _ IH]; intros n E w []; destruct n; cbn in E; try discriminate; injection E as -> ->; subst; eauto.
Qed.

Lemma strict_elem_tys q S (vs : list val) ss : strict q S = true -> elem_tys S (length vs) = Some ss ->
  ss = repeat (elem S) (length vs).
Proof.
  destruct S; try discriminate; cbn.
  - congruence.
  - intros _. destruct (Nat.eqb_spec n (length vs)); congruence.
Qed.

Lemma plain_pairs_Forall2 (P : ty -> ty -> Prop) : forall ts ss, length ts = length ss ->
  (forall i t s, nth_error ts i = Some t -> nth_error ss i = Some s -> P t s) -> Forall2 P ts ss.
Proof.
  induction ts as [|t ts IH]; intros [|s ss] Hl H; try discriminate; constructor.
  - now apply (H O).
  - apply IH; [now injection Hl|]. intros i. apply (H (S i)).
Qed.

Lemma assign_res T : forall S f v,
  plain T S -> assign T S = Some f -> has_ty S v -> okres f T S v.
Proof.
  induction T as [t | t c | ts IH | T' IH | n T' IH] using ty_ind'; intros S f v HP H Hv;
    cbn [assign] in H; (destruct (ty_eqb _ S) eqn:E;
      [apply ty_eqb_eq in E; injection H as <-; exists v; split; [reflexivity|]; rewrite E; now apply Elems_refl |]).
  - eapply to_int_res; eauto.
  - discriminate.
  - destruct S as [s | s d | ss | S' | m S'].
    + now apply (implicit_scalar (TInt s)).
    + now apply (implicit_scalar (TConst s d)).
    + destruct (Nat.eqb_spec (length ts) (length ss)) as [El|]; [|discriminate].
      assert (HPs : Forall2 plain ts ss).
      { inversion HP; subst; try discriminate. apply plain_pairs_Forall2; [assumption|]. intros i t s.
        apply (H6 (length ss)); cbn; [now rewrite (proj2 (Nat.eqb_eq _ _) El) | now rewrite Nat.eqb_refl]. }
      destruct (all_some (zip assign ts ss)) as [fs|] eqn:Ef; [|discriminate]. injection H as <-.
      inversion Hv as [| | S0 vs ss' Hss Hvs]; subst. cbn in Hss.
      destruct (Nat.eqb_spec (length ss) (length vs)) as [El2|]; [|discriminate]. injection Hss as <-.
      assert (HO : okress fs ts ss vs).
      { clear HP E Hv El El2. revert ts ss IH HPs fs Ef Hvs. induction vs as [|w vs IHvs]; intros ts ss IH HPs fs Ef Hvs.
        - inversion Hvs; subst. inversion HPs; subst. injection Ef as <-. constructor.
        - inversion Hvs as [|s ss0 w' vs' Hw Hvs']; subst. inversion HPs as [|t s' ts0 ss' Hp HPs']; subst. cbn in Ef.
          destruct (assign t s) as [g|] eqn:Eg; [|discriminate].
          destruct (all_some (zip assign ts0 ss0)) as [gs|] eqn:Egs; [|discriminate]. injection Ef as <-.
          inversion IH; subst. constructor; eauto. }
      apply okress_run in HO as (rs & Er & Hr). exists (VSeq rs). cbn [elements]. rewrite Er. split; [reflexivity|].
      apply E_seq with ts ss; cbn; [now rewrite El, El2, Nat.eqb_refl | now rewrite El2, Nat.eqb_refl | assumption].
    + exfalso. inversion HP; subst; try discriminate. destruct ts as [|t [|t2 ts]]; cbn in H; try discriminate. now apply H2.
    + exfalso. inversion HP; subst; try discriminate. destruct ts as [|t [|t2 ts]]; cbn in H; try discriminate. now apply H2.
  - discriminate.
  - discriminate.
Qed.

Lemma direct_same T : direct true T T = Some (fun v => Ok v).
Proof. destruct T; cbn [direct]; now rewrite ty_eqb_refl. Qed.

Lemma direct_res T S f v :
  T = S \/ (is_int T = true /\ scalar S = true) -> direct true T S = Some f -> has_ty S v -> okres f T S v.
Proof.
  intros [<- | [HT HS]] H Hv.
  - rewrite direct_same in H. injection H as <-. exists v. split; [reflexivity|]. now apply Elems_refl.
  - destruct T; try discriminate. cbn [direct] in H. destruct (ty_eqb _ S) eqn:E.
    + apply ty_eqb_eq in E. injection H as <-. exists v. split; [reflexivity|]. rewrite E. now apply Elems_refl.
    + eapply to_int_res; eauto.
Qed.
Lemma direct_some T S : T = S \/ (is_int T = true /\ scalar S = true) -> exists f, direct true T S = Some f.
Proof.
  intros [<- | [HT HS]].
  - rewrite direct_same. eauto.
  - destruct T; try discriminate. cbn [direct]. destruct (ty_eqb _ S); [eauto|]. now apply to_int_some.
Qed.

(** * The conversion *)
Definition res (f : run) (T S : ty) (v : val) : Prop :=
  okres f T S v \/ (f v = AssertFail /\ forall r, ~ Elems T S v r).
Definition good (T S : ty) : Prop := forall q,
  (can1 T q S = true -> exists f, conv1 T q S = Some f /\ forall v, has_ty S v -> res f T S v) /\
  (can1 T q S = false -> forall v, has_ty S v -> forall r, ~ Elems T S v r).

Lemma zip_good q ts ss : Forall2 good ts ss ->
  (forallb (fun b => b) (zip (fun t s => can1 t q s) ts ss) = true ->
   exists fs, all_some (zip (fun t s => conv1 t q s) ts ss) = Some fs /\
   forall vs, has_tys ss vs ->
     (exists rs, run_all fs vs = Ok rs /\ Elemss ts ss vs rs) \/
     (run_all fs vs = AssertFail /\ forall rs, ~ Elemss ts ss vs rs)) /\
  (forallb (fun b => b) (zip (fun t s => can1 t q s) ts ss) = false ->
   forall vs, has_tys ss vs -> forall rs, ~ Elemss ts ss vs rs).
Proof.
  induction 1 as [|t s ts ss Hg _ [IH1 IH2]]; cbn [zip forallb all_some].
  - split; [|discriminate]. intros _. exists []. split; [reflexivity|]. intros vs H. inversion H; subst.
    left. exists []. split; [reflexivity | constructor].
  - destruct (Hg q) as [G1 G2]. split.
    + intro H. apply andb_true_iff in H as [Ha Hb]. destruct (G1 Ha) as (f & -> & Hf). destruct (IH1 Hb) as (fs & -> & Hfs).
      eexists. split; [reflexivity|]. intros vs Hvs. inversion Hvs as [|s' ss' v vs' Hv Hvs']; subst. cbn [run_all].
      destruct (Hf v Hv) as [(r & Er & Hr) | [Ef Hn]].
      * rewrite Er. cbn [bind]. destruct (Hfs vs' Hvs') as [(rs & Ers & Hrs) | [Ers Hn]]; rewrite Ers; cbn [bind].
        -- left. eexists. split; [reflexivity | now constructor].
        -- right. split; [reflexivity|]. intros rs HE. inversion HE; subst. now apply (Hn rs0).
      * rewrite Ef. cbn [bind]. right. split; [reflexivity|]. intros rs HE. inversion HE; subst. now apply (Hn r).
    + intros H vs Hvs rs HE. inversion Hvs as [|s' ss' v vs' Hv Hvs']; subst.
      inversion HE as [|t' ts' s' ss' v' vs'' r rs' He HEs]; subst. apply andb_false_iff in H as [H|H].
      * now apply (G2 H v Hv r).
      * now apply (IH2 H vs' Hvs' rs').
Qed.

(** ** Shapes of the lists *)
Lemma zip_repeat_l {A B C} (f : A -> B -> C) x ss : zip f (repeat x (length ss)) ss = map (f x) ss.
Proof. induction ss as [|s ss IH]; cbn; [|rewrite IH]; reflexivity. Qed.
Lemma zip_repeat_r {A B C} (f : A -> B -> C) y ts : zip f ts (repeat y (length ts)) = map (fun t => f t y) ts.
Proof. induction ts as [|s ss IH]; cbn; [|rewrite IH]; reflexivity. Qed.
Lemma zip_repeat {A B C} (f : A -> B -> C) x y n : zip f (repeat x n) (repeat y n) = repeat (f x y) n.
Proof. induction n as [|n IH]; cbn; [|rewrite IH]; reflexivity. Qed.
Lemma map_tt {A} (x : A) n : map (fun _ => x) (repeat tt n) = repeat x n.
Proof. induction n as [|n IH]; cbn; [|rewrite IH]; reflexivity. Qed.
Lemma forallb_map {A} (f : A -> bool) l : forallb (fun b => b) (map f l) = forallb f l.
Proof. induction l as [|x l IH]; cbn; [|rewrite IH]; reflexivity. Qed.
Lemma forallb_rep (b : bool) n : forallb (fun b => b) (repeat b n) = (n =? 0)%nat || b.
Proof. destruct n; [reflexivity|]. induction n as [|n IH]; cbn in *; destruct b; auto. Qed.

(** ** Equations *)
Definition can_many (T : ty) (ss : list ty) : bool :=
  match elem_tys T (length ss) with
  | Some ts => forallb (fun b => b) (zip (fun t s => can1 t QCRef s) ts ss)
  | None => false
  end.
Definition conv_many (T : ty) (ss : list ty) : option run :=
  match elem_tys T (length ss) with
  | Some ts => on_elements (all_some (zip (fun t s => conv1 t QCRef s) ts ss))
  | None => None
  end.

Lemma from_tuple_eq T q S : scalar T = false -> strict q S = false -> is_tuple S = true ->
  not_single S -> S <> TTup [] ->
  can1 T q S = can_many T (unpack S) /\ conv1 T q S = conv_many T (unpack S).
Proof.
  intros HT Hq Hs H1 H0. unfold can_many, conv_many.
  destruct S as [s | s d | ss | S' | m S']; try discriminate.
  - destruct ss as [|s1 [|s2 ss]]; [now destruct H0 | now destruct H1 |].
    destruct T as [t | t c | ts | T' | n T']; try discriminate; cbn [can1 conv1 strict is_tuple unpack elem_tys].
    + destruct (Nat.eqb_spec (length ts) (length (s1 :: s2 :: ss))) as [E|]; [|split; reflexivity]. split; reflexivity.
    + rewrite !zip_repeat_l, forallb_map. split; reflexivity.
    + destruct (Nat.eqb_spec n (length (s1 :: s2 :: ss))) as [E|]; [|split; reflexivity].
      rewrite !zip_repeat_l, forallb_map. split; reflexivity.
  - destruct m as [|[|m]]; [discriminate | now destruct H1 |]. cbn [strict] in Hq.
    destruct q; try discriminate.
    destruct T as [t | t c | ts | T' | n T']; try discriminate; cbn [can1 conv1 strict is_tuple unpack elem_tys].
    + destruct (Nat.eqb_spec (length ts) (length (repeat S' (Datatypes.S (Datatypes.S m))))) as [E|]; [|split; reflexivity]. split; reflexivity.
    + rewrite !zip_repeat_l, forallb_map. split; reflexivity.
    + destruct (Nat.eqb_spec n (length (repeat S' (Datatypes.S (Datatypes.S m))))) as [E|]; [|split; reflexivity].
      rewrite !zip_repeat_l, forallb_map. split; reflexivity.
Qed.

Lemma unpack_tys S n ss : is_tuple S = true -> elem_tys S n = Some ss -> ss = unpack S /\ n = length (unpack S).
Proof.
  intros HS H. pose proof (elem_tys_length _ _ _ H) as L. destruct S; try discriminate; cbn in *.
  - destruct (length ts =? n)%nat; [|discriminate]. injection H as <-. auto.
  - destruct (Nat.eqb_spec n0 n); [|discriminate]. injection H as <-. subst. now rewrite repeat_length.
Qed.
Lemma unpack_self S : is_tuple S = true -> elem_tys S (length (unpack S)) = Some (unpack S).
Proof.
  destruct S; try discriminate; intros _; cbn.
  - now rewrite Nat.eqb_refl.
  - now rewrite repeat_length, Nat.eqb_refl.
Qed.

Definition pairs_good (T S : ty) : Prop :=
  forall n ts ss, elem_tys T n = Some ts -> elem_tys S n = Some ss -> Forall2 good ts ss.

Lemma no_elems_size T S vs r : scalar S = false -> elem_tys T (length vs) = None -> ~ Elems T S (VSeq vs) r.
Proof. intros HS HT H. inversion H; subst; try discriminate; congruence. Qed.

Lemma many_good T q S : scalar T = false -> strict q S = false -> is_tuple S = true ->
  not_single S -> S <> TTup [] -> pairs_good T S ->
  (can1 T q S = true -> exists f, conv1 T q S = Some f /\ forall v, has_ty S v -> res f T S v) /\
  (can1 T q S = false -> forall v, has_ty S v -> forall r, ~ Elems T S v r).
Proof.
  intros HT Hq Hs H1 H0 HG. destruct (from_tuple_eq T q S HT Hq Hs H1 H0) as [-> ->].
  assert (HS : scalar S = false) by (destruct S; try discriminate; reflexivity).
  unfold can_many, conv_many. destruct (elem_tys T (length (unpack S))) as [ts|] eqn:ET.
  - destruct (zip_good QCRef ts (unpack S)) as [Z1 Z2]. { apply (HG _ _ _ ET). now apply unpack_self. }
    split.
    + intro H. destruct (Z1 H) as (fs & -> & Hfs). eexists. split; [reflexivity|]. intros v Hv.
      inversion Hv as [| | S0 vs ss Hss Hvs]; subst; try discriminate.
      destruct (unpack_tys _ _ _ Hs Hss) as [-> EL]. unfold res, okres. cbn [elements].
      destruct (Hfs vs Hvs) as [(rs & -> & Hr) | [-> Hn]]; cbn [omap bind].
      * left. eexists. split; [reflexivity|]. apply E_seq with ts (unpack S); congruence.
      * right. split; [reflexivity|]. intros r HE. inversion HE; subst; try discriminate; try congruence.
        apply (Hn rs). congruence.
    + intros H v Hv r HE. inversion Hv as [| | S0 vs ss Hss Hvs]; subst; try discriminate.
      destruct (unpack_tys _ _ _ Hs Hss) as [-> EL]. inversion HE; subst; try discriminate; try congruence.
      apply (Z2 H vs Hvs rs). congruence.
  - split; [discriminate|]. intros _ v Hv r. inversion Hv as [| | S0 vs ss Hss Hvs]; subst; try discriminate.
    destruct (unpack_tys _ _ _ Hs Hss) as [-> EL]. apply no_elems_size; congruence.
Qed.

(** From a strict range to an array or a tuple with [n] elements. *)
Lemma strict_good T q S n ts : strict q S = true -> elem_tys T n = Some ts -> (forall m, m <> n -> elem_tys T m = None) ->
  pairs_good T S -> sizes_match (Some n) (static_size S) = true ->
  (forallb (fun b => b) (zip (fun t s => can1 t (elem_qual q) s) ts (repeat (elem S) n)) = true ->
   exists f, checked n (on_elements (all_some (zip (fun t s => conv1 t (elem_qual q) s) ts (repeat (elem S) n)))) = Some f /\
   forall v, has_ty S v -> res f T S v) /\
  (forallb (fun b => b) (zip (fun t s => can1 t (elem_qual q) s) ts (repeat (elem S) n)) = false ->
   forall v, has_ty S v -> forall r, ~ Elems T S v r).
Proof.
  intros Hq HT Hm HG Hsz.
  assert (HS : scalar S = false) by (destruct S; try discriminate; reflexivity).
  assert (ES : elem_tys S n = Some (repeat (elem S) n)).
  { destruct S; try discriminate; cbn in *; [reflexivity|]. apply Nat.eqb_eq in Hsz. subst. now rewrite Nat.eqb_refl. }
  destruct (zip_good (elem_qual q) ts (repeat (elem S) n)) as [Z1 Z2]. { now apply (HG n). }
  split.
  - intro H. destruct (Z1 H) as (fs & -> & Hfs). eexists. split; [reflexivity|]. intros v Hv.
    inversion Hv as [| | S0 vs ss Hss Hvs]; subst; try discriminate. unfold res, okres. cbn [elements]. unfold assert_then.
    destruct (Nat.eqb_spec n (length vs)) as [->|Hne].
    + assert (ss = repeat (elem S) (length vs)) by congruence. subst.
      destruct (Hfs vs Hvs) as [(rs & -> & Hr) | [-> Hn]]; cbn [omap bind].
      * left. eexists. split; [reflexivity|]. now apply E_seq with ts (repeat (elem S) (length vs)).
      * right. split; [reflexivity|]. intros r HE. inversion HE; subst; try discriminate; try congruence.
        apply (Hn rs). congruence.
    + right. split; [reflexivity|]. intro r. apply no_elems_size; auto.
  - intros H v Hv r HE. inversion Hv as [| | S0 vs ss Hss Hvs]; subst; try discriminate.
    destruct (Nat.eq_dec (length vs) n) as [<-|Hne].
    + assert (ss = repeat (elem S) (length vs)) by congruence. subst.
      inversion HE; subst; try discriminate; try congruence. apply (Z2 H vs Hvs rs). congruence.
    + now apply (no_elems_size T S vs r HS (Hm _ Hne)).
Qed.

Lemma strict_mismatch T q S n : strict q S = true -> (forall m, m <> n -> elem_tys T m = None) ->
  sizes_match (Some n) (static_size S) = false -> forall v, has_ty S v -> forall r, ~ Elems T S v r.
Proof.
  intros Hq Hm Hsz v Hv r HE.
  assert (HS : scalar S = false) by (destruct S; try discriminate; reflexivity).
  inversion Hv as [| | S0 vs ss Hss Hvs]; subst; try discriminate.
  assert (length vs <> n).
  { destruct S; try discriminate. cbn in *. apply Nat.eqb_neq in Hsz. destruct (Nat.eqb_spec n0 (length vs)); [lia | discriminate]. }
  now apply (no_elems_size T S vs r HS (Hm _ H)).
Qed.

Lemma each_res f T S vs ss ts q :
  strict q S = true -> elem_tys S (length vs) = Some ss -> has_tys ss vs ->
  elem_tys T (length vs) = Some ts -> ts = repeat (elem T) (length vs) ->
  (forall v, In v vs -> has_ty (elem S) v -> okres f (elem T) (elem S) v) ->
  exists rs, run_all (map (fun _ => f) vs) vs = Ok rs /\ Elems T S (VSeq vs) (VSeq rs).
Proof.
  intros Hq HS Hvs HT -> Hf. pose proof (strict_elem_tys q S vs ss Hq HS) as ->.
  destruct (okress_run (map (fun _ => f) vs) (repeat (elem T) (length vs)) (repeat (elem S) (length vs)) vs) as (rs & Er & Hr).
  { apply okress_each. intros v Hv. apply Hf; [assumption|]. now apply (has_tys_repeat _ _ _ Hvs). }
  exists rs. split; [assumption|]. eapply E_seq; eauto.
Qed.

(** ** Numbers *)
Lemma common_same s t x : sgn s = sgn t -> 0 < bits s -> in_ity s x ->
  in_ity (common s t) x /\ in_ity (common t s) x.
Proof.
  intros E Hb Hx.
  assert (F1 : bits s < 32 -> 2 ^ bits s <= 2 ^ 31 /\ 2 ^ (bits s - 1) <= 2 ^ 31).
  { intro. split; apply Z.pow_le_mono_r; lia. }
  assert (F2 : bits s <= bits t -> 2 ^ bits s <= 2 ^ bits t /\ 2 ^ (bits s - 1) <= 2 ^ (bits t - 1)).
  { intro. split; apply Z.pow_le_mono_r; lia. }
  assert (F3 : bits s < bits t -> 2 ^ bits s <= 2 ^ (bits t - 1)).
  { intro. apply Z.pow_le_mono_r; lia. }
  assert (F4 : 32 <= bits t -> 2 ^ 31 <= 2 ^ (bits t - 1) /\ 2 ^ 32 <= 2 ^ bits t).
  { intro. split; apply Z.pow_le_mono_r; lia. }
  assert (F5 : 32 <= bits s -> 2 ^ 31 <= 2 ^ (bits s - 1) /\ 2 ^ 32 <= 2 ^ bits s).
  { intro. split; apply Z.pow_le_mono_r; lia. }
  change (2 ^ 31) with 2147483648 in *. change (2 ^ 32) with 4294967296 in *.
  destruct s as [bs ss], t as [bt st]. cbn [bits sgn] in *. subst st.
  unfold common, promote, in_ity, ilow, ihigh in *. cbn [bits sgn] in *.
  destruct (Z.ltb_spec bs 32), (Z.ltb_spec bt 32); cbn [bits sgn int32] in *;
    repeat match goal with
           | |- context [?a =? ?b] => destruct (Z.eqb_spec a b)
           | |- context [?a <? ?b] => destruct (Z.ltb_spec a b)
           end; cbn [bits sgn int32] in *; destruct ss; cbn [bits sgn int32 andb] in *;
    change (2 ^ (32 - 1)) with 2147483648 in *; change (2 ^ 32) with 4294967296 in *; try lia;
    assert (bs = 32) by lia; subst bs; change (2 ^ (32 - 1)) with 2147483648 in *; change (2 ^ 32) with 4294967296 in *; lia.
Qed.

Lemma common_pos s t : 0 < bits s -> 0 < bits (common s t).
Proof.
  intro H. unfold common, promote. destruct (Z.ltb_spec (bits s) 32), (Z.ltb_spec (bits t) 32); cbn [bits int32];
    repeat match goal with
           | |- context [?a =? ?b] => destruct (Z.eqb_spec a b)
           | |- context [?a <? ?b] => destruct (Z.ltb_spec a b)
           end; cbn [bits]; lia.
Qed.

Lemma equal_ints_spec s t x y : sgn s = sgn t -> 0 < bits s -> 0 < bits t -> in_ity s x -> in_ity t y ->
  equal_ints s t x y = (x =? y).
Proof.
  intros E Hs Ht Hx Hy. unfold equal_ints.
  destruct (common_same s t x E Hs Hx) as [H1 _]. destruct (common_same t s y (eq_sym E) Ht Hy) as [_ H2].
  rewrite !wrap_id; auto using common_pos.
Qed.

(** ** All of the pairs *)
Lemma good_scalar_wrap T S : scalar T = false -> scalar S = true ->
  (forall t, elem_tys T 1 = Some [t] -> good t S) -> good T S.
Proof.
  intros HT HS HG q.
  assert (N : elem_tys T 1 = None -> forall v r, ~ Elems T S v r).
  { intros E v r H. inversion H; subst; try discriminate; try congruence. destruct S; discriminate. }
  assert (Y : forall t, elem_tys T 1 = Some [t] ->
    (can1 t q S = true -> exists f, single (conv1 t q S) = Some f /\ forall v, has_ty S v -> res f T S v) /\
    (can1 t q S = false -> forall v, has_ty S v -> forall r, ~ Elems T S v r)).
  { intros t Et. destruct (HG t Et q) as [G1 G2]. split.
    - intro H. destruct (G1 H) as (f & -> & Hf). eexists. split; [reflexivity|]. intros v Hv. unfold res, okres.
      destruct (Hf v Hv) as [(r & -> & Hr) | [-> Hn]]; cbn [omap bind].
      + left. eexists. split; [reflexivity|]. now apply E_wrap with t.
      + right. split; [reflexivity|]. intros r HE. inversion HE; subst; try discriminate; try (destruct S; discriminate).
        apply (Hn r0). congruence.
    - intros H v Hv r HE. inversion HE; subst; try discriminate; try (destruct S; discriminate).
      apply (G2 H v Hv r0). congruence. }
  assert (Hst : strict q S = false) by (destruct S; try discriminate; reflexivity).
  assert (Hst2 : is_tuple S = false) by (destruct S; try discriminate; reflexivity).
  destruct T as [t | t c | ts | T' | n T']; try discriminate.
  - assert (EC : can1 (TTup ts) q S = match ts with [t] => can1 t q S | _ => false end).
    { destruct S; try discriminate; reflexivity. }
    assert (EV : conv1 (TTup ts) q S = match ts with [t] => single (conv1 t q S) | _ => None end).
    { destruct S; try discriminate; reflexivity. }
    rewrite EC, EV. destruct ts as [|t [|t2 ts]].
    + split; [discriminate|]. intros _ v _. now apply N.
    + now apply Y.
    + split; [discriminate|]. intros _ v _. now apply N.
  - assert (EC : can1 (TVec T') q S = can1 T' q S). { destruct S; try discriminate; reflexivity. }
    assert (EV : conv1 (TVec T') q S = single (conv1 T' q S)). { destruct S; try discriminate; reflexivity. }
    rewrite EC, EV. now apply Y.
  - assert (EC : can1 (TArr n T') q S = (n =? 1)%nat && can1 T' q S). { destruct S; try discriminate; reflexivity. }
    assert (EV : conv1 (TArr n T') q S = single (conv1 T' q S)). { destruct S; try discriminate; reflexivity. }
    rewrite EC, EV. destruct (Nat.eqb_spec n 1) as [->|Hn].
    + now apply Y.
    + split; [discriminate|]. intros _ v _. apply N. cbn. destruct (Nat.eqb_spec n 1); [contradiction | reflexivity].
Qed.

Lemma good_const t c s : sgn s = sgn t -> 0 < bits t -> in_ity t c -> good (TConst t c) (TInt s).
Proof.
  intros E Hb Hc q. split; [|discriminate]. intros _. eexists. split; [reflexivity|]. intros v Hv.
  inversion Hv; subst; [|discriminate]. unfold res, okres, assert_then. cbn [int_of].
  rewrite equal_ints_spec; auto. destruct (Z.eqb_spec z c) as [->|Hne].
  - left. eexists. split; [reflexivity | constructor].
  - right. split; [reflexivity|]. intros r HE. inversion HE; subst; try discriminate; now destruct Hne.
Qed.
Lemma good_const_const t c s d : sgn s = sgn t -> 0 < bits t -> in_ity t c -> good (TConst t c) (TConst s d).
Proof.
  intros E Hb Hc q.
  assert (N : d <> c -> forall v r, ~ Elems (TConst t c) (TConst s d) v r).
  { intros Hne v r HE. inversion HE; subst; try discriminate; now destruct Hne. }
  destruct q; cbn [can1 conv1].
  - split.
    + intros H. rewrite H. eexists. split; [reflexivity|]. intros v Hv. inversion Hv; subst; [|discriminate].
      left. exists VUnit. split; [reflexivity|]. rewrite equal_ints_spec in H; auto. apply Z.eqb_eq in H. subst. constructor.
    + intros H v Hv. inversion Hv; subst; [|discriminate]. apply N. rewrite equal_ints_spec in H; auto. apply Z.eqb_neq in H. auto.
  - split; [|discriminate]. intros _. eexists. split; [reflexivity|]. intros v Hv. inversion Hv; subst; [|discriminate].
    unfold res, okres, assert_then. rewrite equal_ints_spec; auto. destruct (Z.eqb_spec d c) as [->|Hne].
    + left. eexists. split; [reflexivity | constructor].
    + right. split; [reflexivity|]. now apply N.
  - split; [|discriminate]. intros _. eexists. split; [reflexivity|]. intros v Hv. inversion Hv; subst; [|discriminate].
    unfold res, okres, assert_then. rewrite equal_ints_spec; auto. destruct (Z.eqb_spec d c) as [->|Hne].
    + left. eexists. split; [reflexivity | constructor].
    + right. split; [reflexivity|]. now apply N.
Qed.

Lemma good_vec_strict T' q S : strict q S = true ->
  T' = elem S \/ (is_int T' = true /\ scalar (elem S) = true) ->
  exists f, conv1 (TVec T') q S = Some f /\ forall v, has_ty S v -> res f (TVec T') S v.
Proof.
  intros Hq H.
  assert (EV : conv1 (TVec T') q S = on_each (direct true T' (elem S))).
  { destruct S as [| | | |[|[|n]]]; try discriminate; destruct q; try discriminate; reflexivity. }
  rewrite EV. destruct (direct_some _ _ H) as (g & Eg). rewrite Eg. eexists. split; [reflexivity|]. intros v Hv.
  inversion Hv as [| | S0 vs ss Hss Hvs]; subst; try discriminate.
  left. unfold okres. cbn [elements].
  destruct (each_res g (TVec T') S vs ss (repeat T' (length vs)) q Hq Hss Hvs eq_refl eq_refl) as (rs & -> & Hr).
  { intros w _ Hw. now apply direct_res. }
  eexists. split; [reflexivity | assumption].
Qed.

Theorem plain_good T S : plain T S -> good T S.
Proof.
  induction 1 as [t S | t c s E Hb Hc | t c s d E Hb Hc | t c S HS | T S HT HS HP IH | T | T S HT HS T1 S1 S0 HV HP IH].
  - intro q. assert (EC : can1 (TInt t) q S = scalar S) by (destruct S; reflexivity).
    assert (EV : conv1 (TInt t) q S = to_int t S) by (destruct S; reflexivity). rewrite EC, EV. split.
    + intro H. destruct (to_int_some t S H) as (f & Ef). exists f. split; [assumption|]. intros v Hv. left. eapply to_int_res; eauto.
    + intros H v Hv r HE. inversion HE; subst; discriminate.
  - now apply good_const.
  - now apply good_const_const.
  - intro q. split; [destruct S; discriminate|]. intros _ v _ r HE. inversion HE; subst; try discriminate.
  - now apply good_scalar_wrap.
  - intro q. split; [|discriminate]. intros _. apply (good_vec_strict T q (TVec T)); [reflexivity | now left].
  - assert (HG : pairs_good T S).
    { intros n ts ss Ht Hs. apply plain_pairs_Forall2.
      - apply elem_tys_length in Ht. apply elem_tys_length in Hs. congruence.
      - intros i t s Hti Hsi. eapply IH; eauto. }
    intro q. destruct (strict q S) eqn:Hq.
    2:{ apply many_good; auto. destruct S as [| | | |[|n]]; try discriminate; reflexivity. }
    destruct T as [t | t c | ts | T' | n T']; try discriminate.
    + (* a tuple *)
      assert (EC : can1 (TTup ts) q S = sizes_match (Some (length ts)) (static_size S)
                     && forallb (fun b => b) (zip (fun t s => can1 t (elem_qual q) s) ts (repeat (elem S) (length ts)))).
      { rewrite zip_repeat_r, forallb_map.
        destruct ts as [|t [|t2 ts]]; [| now destruct T1 |];
          destruct S as [| | | |[|[|m]]]; try discriminate; destruct q; try discriminate; cbn [can1 strict elem is_tuple negb andb];
          destruct (sizes_match _ _ && forallb _ _); reflexivity. }
      assert (EV : can1 (TTup ts) q S = true -> conv1 (TTup ts) q S =
                     checked (length ts) (on_elements (all_some (zip (fun t s => conv1 t (elem_qual q) s) ts (repeat (elem S) (length ts)))))).
      { rewrite EC. rewrite !zip_repeat_r, forallb_map. intro H.
        destruct S as [| | | |[|[|m]]]; try discriminate; destruct q; try discriminate; cbn [conv1 strict elem] in *; rewrite H; reflexivity. }
      assert (ET : elem_tys (TTup ts) (length ts) = Some ts) by (cbn; now rewrite Nat.eqb_refl).
      assert (EM : forall m, m <> length ts -> elem_tys (TTup ts) m = None).
      { intros m Hm. cbn. destruct (Nat.eqb_spec (length ts) m); [lia | reflexivity]. }
      destruct (sizes_match (Some (length ts)) (static_size S)) eqn:Esz.
      * destruct (strict_good (TTup ts) q S (length ts) ts Hq ET EM HG Esz) as [Z1 Z2]. split.
        -- intro H. rewrite (EV H). rewrite EC in H. now apply Z1.
        -- intro H. rewrite EC in H. now apply Z2.
      * rewrite EC. cbn [andb]. split; [discriminate|]. intros _. now apply (strict_mismatch (TTup ts) q S (length ts)).
    + (* a vector *)
      assert (EC : can1 (TVec T') q S = true).
      { destruct S as [| | | |[|[|m]]]; try discriminate; destruct q; try discriminate; reflexivity. }
      rewrite EC. split; [|discriminate]. intros _. apply good_vec_strict; [assumption|]. apply HV; [reflexivity|].
      destruct S; discriminate.
    + (* an array *)
      assert (ET : elem_tys (TArr n T') n = Some (repeat T' n)) by (cbn; now rewrite Nat.eqb_refl).
      assert (EM : forall m, m <> n -> elem_tys (TArr n T') m = None).
      { intros m Hm. cbn. destruct (Nat.eqb_spec n m); [lia | reflexivity]. }
      assert (N1 : (n =? 1)%nat = false) by (apply Nat.eqb_neq; intros ->; now destruct T1).
      assert (EC : can1 (TArr n T') q S = sizes_match (Some n) (static_size S)
                    && (match assign T' (elem S) with Some _ => true | None => false end
                        || forallb (fun b => b) (zip (fun t s => can1 t (elem_qual q) s) (repeat T' n) (repeat (elem S) n)))).
      { rewrite zip_repeat, forallb_rep.
        destruct S as [| | | |[|[|m]]]; try discriminate; destruct q; try discriminate; cbn [can1 strict elem]; rewrite N1;
          destruct (sizes_match _ _), (assign _ _), (n =? 0)%nat, (can1 _ _ _); reflexivity. }
      destruct (sizes_match (Some n) (static_size S)) eqn:Esz.
      2:{ rewrite EC. split; [discriminate|]. intros _. now apply (strict_mismatch (TArr n T') q S n). }
      destruct (assign T' (elem S)) as [g|] eqn:Eg.
      * rewrite EC. split; [|discriminate]. intros _.
        assert (EV : conv1 (TArr n T') q S = checked n (on_each (Some g))).
        { destruct S as [| | | |[|[|m]]]; try discriminate; destruct q; try discriminate; cbn [conv1 strict elem] in *;
            rewrite Esz, Eg; reflexivity. }
        rewrite EV. eexists. split; [reflexivity|]. intros v Hv.
        inversion Hv as [| | S' vs ss Hss Hvs]; subst; try discriminate. unfold res, okres, assert_then. cbn [elements].
        destruct (Nat.eqb_spec n (length vs)) as [->|Hne].
        -- destruct (each_res g (TArr (length vs) T') S vs ss (repeat T' (length vs)) q Hq Hss Hvs ET eq_refl) as (rs & -> & Hr).
           { intros w Hin Hw. apply assign_res; try assumption.
             destruct vs as [|w0 vs]; [destruct Hin|].
             apply (HP (length (w0 :: vs)) (repeat T' (length (w0 :: vs))) ss O); auto.
             rewrite (strict_elem_tys q S _ ss Hq Hss). reflexivity. }
           left. eexists. split; [reflexivity | assumption].
        -- right. split; [reflexivity|]. intro r. apply no_elems_size; auto.
      * destruct (strict_good (TArr n T') q S n (repeat T' n) Hq ET EM HG Esz) as [Z1 Z2].
        assert (EV : can1 (TArr n T') q S = true -> conv1 (TArr n T') q S =
                     checked n (on_elements (all_some (zip (fun t s => conv1 t (elem_qual q) s) (repeat T' n) (repeat (elem S) n))))).
        { rewrite EC. cbn [orb andb]. rewrite !zip_repeat, forallb_rep. intro H.
          destruct S as [| | | |[|[|m]]]; try discriminate; destruct q; try discriminate; cbn [conv1 strict elem] in *;
            rewrite Esz, Eg, H; cbn [andb]; rewrite map_tt; reflexivity. }
        split.
        -- intro H. rewrite (EV H). rewrite EC in H. now apply Z1.
        -- intro H. rewrite EC in H. now apply Z2.
Qed.

(** ** The result is of the target type *)
Inductive wf_ty : ty -> Prop :=
| W_int t : 0 < bits t -> wf_ty (TInt t)
| W_const t c : 0 < bits t -> in_ity t c -> wf_ty (TConst t c)
| W_tup ts : wf_tys ts -> wf_ty (TTup ts)
| W_vec t : wf_ty t -> wf_ty (TVec t)
| W_arr n t : wf_ty t -> wf_ty (TArr n t)
with wf_tys : list ty -> Prop :=
| W_nil : wf_tys []
| W_cons t ts : wf_ty t -> wf_tys ts -> wf_tys (t :: ts).

Lemma wf_repeat t n : wf_ty t -> wf_tys (repeat t n).
Proof. intro H. induction n; cbn; constructor; auto. Qed.
Lemma wf_elem_tys T n ts : wf_ty T -> elem_tys T n = Some ts -> wf_tys ts.
Proof.
  destruct 1; cbn; try discriminate.
  - destruct (length ts0 =? n)%nat; [|discriminate]. now intros [= <-].
  - intros [= <-]. now apply wf_repeat.
  - destruct (n0 =? n)%nat; [|discriminate]. intros [= <-]. now apply wf_repeat.
Qed.

Lemma Elemss_length ts ss vs rs : Elemss ts ss vs rs -> length rs = length vs.
Proof. induction 1; cbn; congruence. Qed.

Lemma Elems_typed :
  (forall T S v r, Elems T S v r -> wf_ty T -> has_ty T r) /\
  (forall ts ss vs rs, Elemss ts ss vs rs -> wf_tys ts -> has_tys ts rs).
Proof.
  apply Elems_both.
  - intros t s z H. inversion H; subst. constructor; [assumption | now apply wrap_in].
  - intros t s c H. inversion H; subst. constructor; [assumption | now apply wrap_in].
  - intros t s c H. inversion H; subst. now constructor.
  - intros t s c H. inversion H; subst. now constructor.
  - intros T S t v r _ HT _ IH H. apply H_seq with [t]; [assumption|].
    pose proof (wf_elem_tys _ _ _ H HT) as W. inversion W; subst. constructor; [auto | constructor].
  - intros T S ts ss vs rs HT _ HE IH H. apply H_seq with ts.
    + now rewrite (Elemss_length _ _ _ _ HE).
    + apply IH. eapply wf_elem_tys; eauto.
  - constructor.
  - intros t ts s ss v vs r rs _ IH _ IHs H. inversion H; subst. constructor; auto.
Qed.
