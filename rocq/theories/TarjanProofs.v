(** What find_strong_components guarantees: every vertex is labelled and
    vertices with equal labels are mutually reachable. *)
From Coq Require Import ZArith List Bool PeanoNat Lia Permutation.
From Verif Require Import Outcome GraphModel DfsProofs DfsResults.
Import ListNotations.
Local Open Scope Z_scope.

(** ** Discovery times *)
(** [T] numbers the vertices of [D] (latest first) by 1, 2, ... *)
Fixpoint times (T : nat -> Z) (D : list nat) : Prop :=
  match D with [] => True | x :: D' => T x = Z.of_nat (length D) /\ times T D' end.
Lemma times_exists D : NoDup D -> exists T, times T D.
Proof.
  induction 1 as [|x D Hx N (T & HT)]; [exists (fun _ => 0); exact I|].
  exists (upd T x (Z.of_nat (length (x :: D)))). split; [apply upd_same|].
  assert (forall E, ~ In x E -> times T E -> times (upd T x (Z.of_nat (length (x :: D)))) E) as H.
  { induction E as [|y E IH]; intros Hn HE; [exact I|]. destruct HE as (A & B). split.
    - rewrite upd_other; [exact A|]. intros ->. apply Hn. now left.
    - apply IH; [intro; apply Hn; now right | assumption]. }
  now apply H.
Qed.
Lemma times_app T X D : times T (X ++ D) -> times T D.
Proof. induction X as [|x X IH]; [easy|]. cbn. intros (_ & H). auto. Qed.
Lemma times_range T D v : times T D -> In v D -> 1 <= T v <= Z.of_nat (length D).
Proof.
  induction D as [|x D IH]; [easy|]. intros (A & B) [<-|Hv]; [cbn [length] in *; lia|]. specialize (IH B Hv). cbn [length]. lia.
Qed.
Lemma times_head T u D : times T (u :: D) -> T u = Z.of_nat (length D) + 1.
Proof. intros (A & _). rewrite A. cbn [length]. lia. Qed.
Lemma times_inj T D v w : times T D -> In v D -> In w D -> T v = T w -> v = w.
Proof.
  induction D as [|x D IH]; [easy|]. intros (A & B) [<-|Hv] [<-|Hw] E; auto.
  - pose proof (times_range T D w B Hw). cbn [length] in A. lia.
  - pose proof (times_range T D v B Hv). cbn [length] in A. lia.
Qed.
Lemma visit_times g u D t D' T : visit g u D t D' -> times T D' -> times T (u :: D).
Proof.
  intros H HT. inversion H as [? ? t0 ? H0]; subst. apply (proj2 (visit_scan_discovers g)) in H0. rewrite H0 in HT. now apply times_app in HT.
Qed.
Lemma scan_times g u es D t D' T : scan_es g u es D t D' -> times T D' -> times T D.
Proof. intros H HT. apply (proj2 (visit_scan_discovers g)) in H. rewrite H in HT. now apply times_app in HT. Qed.
Lemma visit_scan_nodup g :
  (forall u D t D', visit g u D t D' -> ~ In u D -> NoDup D -> NoDup D') /\
  (forall u es D t D', scan_es g u es D t D' -> NoDup D -> NoDup D').
Proof.
  apply visit_scan_ind.
  - intros u D t D' _ IH Hu N. apply IH. now constructor.
  - auto.
  - auto.
  - auto.
Qed.
Lemma forest_nodup g rs D t D' : forest g rs D t D' -> NoDup D -> NoDup D'.
Proof. induction 1; auto. intro. apply IHforest. now apply (proj1 (visit_scan_nodup g)) in H0. Qed.
Lemma forest_suffix g rs D t D' : forest g rs D t D' -> exists X, D' = X ++ D.
Proof.
  induction 1 as [D|r rs D t D' Hi F IH|r rs D t1 D1 t2 D' Hn H1 H2 (X & IH)]; [now exists [] | assumption |].
  apply (proj1 (visit_scan_discovers g)) in H1. rewrite H1 in IH. exists (X ++ rev (discovers t1)). now rewrite <- app_assoc.
Qed.

(** ** The stack of vertices *)
Lemma cs_pop_loop_ok m n Z1 u P : ~ In u Z1 ->
  exists m', cs_pop_loop m n (Z1 ++ u :: P) u = (m', P, false) /\
    forall v, m' v = if existsb (Nat.eqb v) (Z1 ++ [u]) then n else m v.
Proof.
  revert m. induction Z1 as [|x Z1 IH]; intros m H.
  - exists (upd m u n). cbn. rewrite Nat.eqb_refl. split; [reflexivity|]. intro v. rewrite orb_false_r. reflexivity.
  - cbn [app cs_pop_loop]. destruct (Nat.eqb_spec x u) as [->|n0]; [destruct H; now left|].
    destruct (IH (upd m x n)) as (m' & E & F); [intro; apply H; now right|].
    exists m'. split; [assumption|]. intro v. rewrite F. cbn [existsb]. unfold upd.
    destruct (existsb (Nat.eqb v) (Z1 ++ [u])); [now rewrite orb_true_r | now rewrite orb_false_r].
Qed.

(** ** is_vertex_discovered is exact *)
Definition tarjan_ok (g : graph) (D : list nat) (s : tarjan) : Prop :=
  0 <= tj_now s /\ (forall v, In v D -> 0 < tj_low s v) /\ forall v, (v < g_n g)%nat -> ~ In v D -> tj_low s v = 0.
Lemma tarjan_disciplined g : disciplined g tarjan_visitor (tarjan_ok g).
Proof.
  assert (forall D s u, tarjan_ok g D s -> tarjan_ok g (u :: D) (v_step tarjan_visitor (EStart u) s)) as A.
  { intros D s u (H0 & H1 & H2). split; [cbn; lia|]. split.
    - intros v [<-|Hv]; cbn; [rewrite upd_same; lia|]. unfold upd. destruct (v =? u)%nat; [lia | auto].
    - intros v Lv Hv. cbn. rewrite upd_other; [|intros ->; apply Hv; now left]. apply H2; [assumption | intro; apply Hv; now right]. }
  assert (forall D s e, tarjan_ok g D s -> In (e_src e) D -> In (e_tgt e) D -> tarjan_ok g D (tj_relax e s)) as B.
  { intros D s e (H0 & H1 & H2) Hs Ht. unfold tj_relax. destruct (tj_low s (e_tgt e) <? tj_low s (e_src e)); [|now split].
    split; [exact H0|]. split; cbn.
    - intros v Hv. unfold upd. destruct (v =? e_src e)%nat; auto.
    - intros v Lv Hv. rewrite upd_other; [auto|]. intros ->. contradiction. }
  assert (forall D s u, tarjan_ok g D s -> In u D -> tarjan_ok g D (tj_set s u int_max)) as C.
  { intros D s u (H0 & H1 & H2) Hu. split; [exact H0|]. split; cbn.
    - intros v Hv. unfold upd. destruct (v =? u)%nat; [reflexivity | auto].
    - intros v Lv Hv. rewrite upd_other; [auto|]. intros ->. contradiction. }
  split; intros.
  - destruct H as (_ & H1 & H2). cbn. rewrite negb_true_iff, Z.eqb_neq. split.
    + intro X. destruct (in_dec Nat.eq_dec v D); [assumption|]. now destruct X; apply H2.
    + intro X. specialize (H1 v X). lia.
  - now apply A.
  - now apply A.
  - now apply B.
  - apply C; [now apply B | assumption].
  - cbn. now destruct (tj_not_root s u).
  - now apply C.
Qed.
