(** Searches with related visitors: the control flow depends on the answers of is_vertex_discovered only. *)
From Coq Require Import List Bool Arith Lia.
From Verif Require Import Outcome GraphModel.
Import ListNotations.

Section Sim.
  Context {S S' : Type} (V : visitor S) (V' : visitor S') (g : graph) (tm : nat -> bool).
  Variable R : S -> S' -> Prop.
  Hypothesis Hstep : forall ev s s', R s s' -> R (v_step V ev s) (v_step V' ev s').
  Hypothesis Hdisc : forall s s' u, R s s' -> v_disc V s u = v_disc V' s' u.

  Definition same_out {A B} (Q : A -> B -> Prop) (x : outcome A) (y : outcome B) : Prop :=
    match x, y with
    | Ok a, Ok b => Q a b
    | NoFuel, NoFuel => True
    | UB, UB => True
    | _, _ => False
    end.
  Definition same_q (x : (S * list nat) + S) (y : (S' * list nat) + S') : Prop :=
    match x, y with
    | inl (s, q), inl (s', q') => R s s' /\ q = q'
    | inr s, inr s' => R s s'
    | _, _ => False
    end.

  Lemma init_sim s s' : R s s' -> R (init_all V g s) (init_all V' g s').
  Proof.
    unfold init_all. revert s s'. induction (vertices g) as [|u l IH]; intros s s' H; [exact H|]. cbn. apply IH. now apply Hstep.
  Qed.
  Lemma discover_sim s s' q u : R s s' -> same_q (bfs_discover V tm s q u) (bfs_discover V' tm s' q u).
  Proof. intros H. unfold bfs_discover. destruct (tm u); cbn; [apply Hstep, Hstep, H|]. split; [now apply Hstep | reflexivity]. Qed.
  Lemma sources_sim src : forall s s' q, R s s' -> same_q (bfs_sources V tm s q src) (bfs_sources V' tm s' q src).
  Proof.
    induction src as [|u src IH]; intros s s' q H; cbn [bfs_sources]; [now split|].
    pose proof (discover_sim _ _ q u (Hstep (ESearchStart u) _ _ H)) as D.
    destruct (bfs_discover V tm _ q u) as [[s1 q1]|s1], (bfs_discover V' tm _ q u) as [[s2 q2]|s2]; try contradiction; [|exact D].
    destruct D as [D ->]. now apply IH.
  Qed.
  Lemma edges_sim es : forall s s' q, R s s' -> same_q (bfs_edges V tm s q es) (bfs_edges V' tm s' q es).
  Proof.
    induction es as [|e es IH]; intros s s' q H; cbn [bfs_edges]; [now split|].
    rewrite <- (Hdisc _ _ (e_tgt e) H). destruct (v_disc V s (e_tgt e)); [apply IH; now apply Hstep|].
    pose proof (discover_sim _ _ q (e_tgt e) (Hstep (ETreeStart e) _ _ H)) as D.
    destruct (bfs_discover V tm _ q _) as [[s1 q1]|s1], (bfs_discover V' tm _ q _) as [[s2 q2]|s2]; try contradiction; [|exact D].
    destruct D as [D ->]. apply IH. now apply Hstep.
  Qed.
  Lemma bfs_loop_sim fuel : forall s s' q, R s s' -> same_out R (bfs_loop V g tm fuel s q) (bfs_loop V' g tm fuel s' q).
  Proof.
    induction fuel as [|fuel IH]; intros s s' q H; destruct q as [|u q]; cbn [bfs_loop]; try (now apply Hstep); [exact I|].
    pose proof (edges_sim (g_out g u) _ _ q (Hstep (EStart u) _ _ H)) as D.
    destruct (bfs_edges V tm _ q _) as [[s1 q1]|s1], (bfs_edges V' tm _ q _) as [[s2 q2]|s2]; try contradiction; [|exact D].
    destruct D as [D ->]. apply IH. now apply Hstep.
  Qed.
  Lemma bfs_sim fuel s s' src : R s s' -> same_out R (bfs V g tm fuel s src) (bfs V' g tm fuel s' src).
  Proof.
    intros H. unfold bfs. pose proof (sources_sim src _ _ [] (init_sim _ _ H)) as D.
    destruct (bfs_sources V tm _ [] src) as [[s1 q1]|s1], (bfs_sources V' tm _ [] src) as [[s2 q2]|s2]; try contradiction; [|exact D].
    destruct D as [D ->]. now apply bfs_loop_sim.
  Qed.

  Definition same_su (x : S * nat) (y : S' * nat) : Prop := R (fst x) (fst y) /\ snd x = snd y.
  Lemma dfs_loop_sim fuel : forall s s' u it st, R s s' ->
    same_out same_su (dfs_loop V g tm fuel s u it st) (dfs_loop V' g tm fuel s' u it st).
  Proof.
    induction fuel as [|fuel IH]; intros s s' u it st H; cbn [dfs_loop]; [exact I|].
    destruct it as [|e it].
    - destruct st as [|[w [|e it]] st]; [split; [now apply Hstep | reflexivity] | exact I |]. apply IH. now apply Hstep, Hstep.
    - rewrite <- (Hdisc _ _ (e_tgt e) H). destruct (v_disc V s (e_tgt e)); [apply IH; now apply Hstep|].
      destruct (tm (e_tgt e)); [split; [now apply Hstep, Hstep, Hstep | reflexivity]|]. apply IH. now apply Hstep, Hstep, Hstep.
  Qed.
  Lemma dfs_visit_sim fuel s s' u : R s s' -> same_out R (dfs_visit V g tm fuel s u) (dfs_visit V' g tm fuel s' u).
  Proof.
    intros H. unfold dfs_visit.
    assert (H' : R (v_step V (EStart u) (v_step V (EDiscover u) (v_step V (ESearchStart u) s)))
      (v_step V' (EStart u) (v_step V' (EDiscover u) (v_step V' (ESearchStart u) s')))) by (now apply Hstep, Hstep, Hstep).
    destruct (tm u); cbn [bind]; [now apply Hstep|].
    pose proof (dfs_loop_sim fuel _ _ u (g_out g u) [] H') as D.
    destruct (dfs_loop V g tm fuel _ u _ _) as [[s1 u1]| | | |], (dfs_loop V' g tm fuel _ u _ _) as [[s2 u2]| | | |]; try contradiction; try exact I.
    destruct D as [D E]. cbn [fst snd] in *. subst u2. cbn. now apply Hstep.
  Qed.
  Lemma dfs_roots_sim fuel us : forall s s', R s s' -> same_out R (dfs_roots V g tm fuel s us) (dfs_roots V' g tm fuel s' us).
  Proof.
    induction us as [|u us IH]; intros s s' H; cbn [dfs_roots]; [exact H|].
    rewrite <- (Hdisc _ _ u H). destruct (v_disc V s u); [now apply IH|].
    pose proof (dfs_visit_sim fuel s s' u H) as D.
    destruct (dfs_visit V g tm fuel s u), (dfs_visit V' g tm fuel s' u); try contradiction; try exact I. now apply IH.
  Qed.
  Lemma dfs_from_sim fuel s s' u : R s s' -> same_out R (dfs_from V g tm fuel s u) (dfs_from V' g tm fuel s' u).
  Proof. intros H. apply dfs_visit_sim. now apply init_sim. Qed.
  Lemma dfs_all_sim fuel s s' : R s s' -> same_out R (dfs_all V g tm fuel s) (dfs_all V' g tm fuel s').
  Proof. intros H. apply dfs_roots_sim. now apply init_sim. Qed.
End Sim.

(** No search has undefined behaviour. *)
Section Defined.
  Context {S : Type} (V : visitor S) (g : graph) (tm : nat -> bool).
  Definition defined {A} (x : outcome A) : Prop := match x with Ok _ | NoFuel => True | _ => False end.
  Lemma bfs_loop_defined fuel : forall s q, defined (bfs_loop V g tm fuel s q).
  Proof.
    induction fuel as [|fuel IH]; intros s [|u q]; cbn [bfs_loop]; try exact I.
    destruct (bfs_edges V tm _ q _) as [[s1 q1]|s1]; [apply IH | exact I].
  Qed.
  Lemma bfs_defined fuel s src : defined (bfs V g tm fuel s src).
  Proof. unfold bfs. destruct (bfs_sources V tm _ [] src) as [[s1 q1]|s1]; [apply bfs_loop_defined | exact I]. Qed.
  Lemma dfs_loop_defined fuel : forall s u it st, Forall (fun x => snd x <> []) st -> defined (dfs_loop V g tm fuel s u it st).
  Proof.
    induction fuel as [|fuel IH]; intros s u it st F; cbn [dfs_loop]; [exact I|].
    destruct it as [|e it].
    - destruct st as [|[w [|e it]] st]; [exact I | inversion F as [|x l X]; now elim X |]. apply IH. now inversion F.
    - destruct (v_disc V s (e_tgt e)); [now apply IH|]. destruct (tm (e_tgt e)); [exact I|]. apply IH. constructor; [discriminate | exact F].
  Qed.
  Lemma dfs_visit_defined fuel s u : defined (dfs_visit V g tm fuel s u).
  Proof.
    unfold dfs_visit. destruct (tm u); cbn [bind]; [exact I|].
    pose proof (dfs_loop_defined fuel (v_step V (EStart u) (v_step V (EDiscover u) (v_step V (ESearchStart u) s))) u (g_out g u) [] (Forall_nil _)) as D.
    destruct (dfs_loop V g tm fuel _ u _ _) as [[s1 u1]| | | |]; try contradiction; exact I.
  Qed.
  Lemma dfs_from_defined fuel s u : defined (dfs_from V g tm fuel s u).
  Proof. apply dfs_visit_defined. Qed.
  Lemma dfs_all_defined fuel s : defined (dfs_all V g tm fuel s).
  Proof.
    unfold dfs_all. generalize (init_all V g s). induction (vertices g) as [|u us IH]; intros s0; cbn [dfs_roots]; [exact I|].
    destruct (v_disc V s0 u); [apply IH|]. pose proof (dfs_visit_defined fuel s0 u) as D.
    destruct (dfs_visit V g tm fuel s0 u); try contradiction; [apply IH | exact I].
  Qed.
End Defined.
