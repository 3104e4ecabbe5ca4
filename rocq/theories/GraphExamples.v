(** Concrete graphs for the examples. *)
From Coq Require Import ZArith List Bool PeanoNat Lia.
From Verif Require Import Outcome GraphModel DfsProofs DfsResults.
Import ListNotations.

Fixpoint number {T} (i : nat) (l : list T) : list (nat * T) :=
  match l with [] => [] | x :: l => (i, x) :: number (S i) l end.
Definition arcs_out (l : list (nat * (nat * nat))) (u : nat) : list edge :=
  flat_map (fun '(i, (a, b)) => if a =? u then [{| e_id := i; e_src := u; e_tgt := b |}] else []) l.
Definition directed (n : nat) (l : list (nat * nat)) : graph := {| g_n := n; g_out := arcs_out (number 0 l) |}.
(** Both directions of an edge have the same id; a loop is stored once. *)
Definition edges_out (l : list (nat * (nat * nat))) (u : nat) : list edge :=
  flat_map (fun '(i, (a, b)) => if a =? u then [{| e_id := i; e_src := u; e_tgt := b |}]
                                else if b =? u then [{| e_id := i; e_src := u; e_tgt := a |}] else []) l.
Definition undirected (n : nat) (l : list (nat * nat)) : graph := {| g_n := n; g_out := edges_out (number 0 l) |}.

Lemma number_in {T} i (l : list T) j x : In (j, x) (number i l) -> In x l.
Proof. revert i. induction l as [|y l IH]; intros i; [easy|]. intros [E|H]; [left; congruence | right; eauto]. Qed.
Definition pairs_ok (n : nat) (l : list (nat * nat)) : bool := forallb (fun '(a, b) => (a <? n) && (b <? n)) l.
Lemma pairs_ok_in n l a b : pairs_ok n l = true -> In (a, b) l -> a < n /\ b < n.
Proof.
  unfold pairs_ok. rewrite forallb_forall. intros H Hi. specialize (H _ Hi). cbn in H.
  apply andb_true_iff in H. destruct H as (H1 & H2). apply Nat.ltb_lt in H1, H2. now split.
Qed.
Lemma directed_wf n l : pairs_ok n l = true -> wf_graph (directed n l).
Proof.
  intros H u e He. cbn in He. unfold arcs_out in He. apply in_flat_map in He. destruct He as ((i & a & b) & Hi & He).
  apply number_in in Hi. apply (pairs_ok_in _ _ _ _ H) in Hi.
  destruct (a =? u); [|easy]. destruct He as [<-|[]]. cbn. split; [reflexivity | tauto].
Qed.
Lemma undirected_wf n l : pairs_ok n l = true -> wf_graph (undirected n l).
Proof.
  intros H u e He. cbn in He. unfold edges_out in He. apply in_flat_map in He. destruct He as ((i & a & b) & Hi & He).
  apply number_in in Hi. apply (pairs_ok_in _ _ _ _ H) in Hi.
  destruct (a =? u); [|destruct (b =? u); [|easy]]; destruct He as [<-|[]]; cbn; split; try reflexivity; tauto.
Qed.
Lemma undirected_symmetric n l : symmetric (undirected n l).
Proof.
  intros u v (e & He & <-). cbn in He. unfold edges_out in He. apply in_flat_map in He.
  destruct He as ((i & a & b) & Hi & He). 
  destruct (Nat.eqb_spec a u) as [->|n1].
  - destruct He as [<-|[]]. cbn.
    destruct (Nat.eq_dec u b) as [->|n2].
    + exists {| e_id := i; e_src := b; e_tgt := b |}. cbn. split; [|reflexivity]. unfold edges_out. apply in_flat_map.
      exists (i, (b, b)). split; [assumption|]. cbn. rewrite Nat.eqb_refl. now left.
    + exists {| e_id := i; e_src := b; e_tgt := u |}. cbn. split; [|reflexivity]. unfold edges_out. apply in_flat_map.
      exists (i, (u, b)). split; [assumption|]. cbn. apply Nat.eqb_neq in n2 as ->. rewrite Nat.eqb_refl. now left.
  - destruct (Nat.eqb_spec b u) as [->|n2]; [|easy]. destruct He as [<-|[]]. cbn.
    exists {| e_id := i; e_src := a; e_tgt := u |}. cbn. split; [|reflexivity]. unfold edges_out. apply in_flat_map.
    exists (i, (a, u)). split; [assumption|]. cbn. rewrite Nat.eqb_refl. now left.
Qed.
(** A function decreasing along the edges shows that there are no cycles. *)
Lemma directed_acyclic n l (rank : nat -> nat) :
  forallb (fun '(a, b) => rank b <? rank a) l = true -> acyclic (directed n l).
Proof.
  intro H. assert (forall u v, arc (directed n l) u v -> rank v < rank u) as A.
  { intros u v (e & He & <-). cbn in He. unfold arcs_out in He. apply in_flat_map in He. destruct He as ((i & a & b) & Hi & He).
    apply number_in in Hi. rewrite forallb_forall in H. specialize (H _ Hi). apply Nat.ltb_lt in H.
    destruct (Nat.eqb_spec a u) as [->|]; [|easy]. destruct He as [<-|[]]. exact H. }
  intros u v Ha R. apply A in Ha. assert (rank u <= rank v); [|lia]. clear Ha.
  induction R as [|x y R IH Ha]; [lia|]. apply A in Ha. lia.
Qed.
