(** Proofs about ids of nodes (C139). *)
From Coq Require Import ZArith List Bool Permutation Lia Sorted.
From Verif Require Import Outcome NumericModel BinaryModel NodeModel.
Import ListNotations.
Local Open Scope Z_scope.

Section NodeProofs.
  Context {A : Type}.
  Notation cont := (list (Z * A)).

  Lemma lookup_In (c : cont) a x : lookup c a = Some x -> In (a, x) c.
  Proof.
    induction c as [|[b y] c IH]; cbn [lookup]; [discriminate|]. destruct (Z.eqb_spec b a) as [->|]; [intros [= ->]; now left|right; auto].
  Qed.
  Lemma In_lookup (c : cont) a x : NoDup (map fst c) -> In (a, x) c -> lookup c a = Some x.
  Proof.
    induction c as [|[b y] c IH]; [easy|]. cbn [map lookup fst]. intros N [[= -> ->]|I].
    - now rewrite Z.eqb_refl.
    - inversion N as [|? ? NI ND]; subst. destruct (Z.eqb_spec b a) as [->|]; [|auto].
      elim NI. now apply (in_map fst) in I.
  Qed.
  Lemma lookup_None (c : cont) a : lookup c a = None <-> ~ In a (map fst c).
  Proof.
    induction c as [|[b y] c IH]; cbn [lookup map fst]; [split; [intros _ []|easy]|].
    destruct (Z.eqb_spec b a) as [->|N]; [split; [discriminate|intros H; elim H; now left]|].
    rewrite IH. split; [intros H [E|I]; [now apply N|now apply H]|intros H I; apply H; now right].
  Qed.
  Lemma lookup_perm (c d : cont) a : NoDup (map fst c) -> Permutation c d -> lookup c a = lookup d a.
  Proof.
    intros N P. assert (N' : NoDup (map fst d)) by (eapply Permutation_NoDup; [apply Permutation_map, P|exact N]).
    destruct (lookup c a) as [x|] eqn:E.
    - symmetry. apply In_lookup; [exact N'|]. apply (Permutation_in _ P). now apply lookup_In.
    - symmetry. apply lookup_None. apply lookup_None in E. intros I. apply E.
      revert I. apply Permutation_in. now apply Permutation_sym, Permutation_map.
  Qed.
  Lemma lookup_mid (l r : cont) b x a : NoDup (map fst (l ++ (b, x) :: r)) ->
    lookup (l ++ (b, x) :: r) a = if b =? a then Some x else lookup (l ++ r) a.
  Proof.
    intros N. rewrite (lookup_perm _ ((b, x) :: l ++ r)); [reflexivity|exact N|].
    apply Permutation_sym, Permutation_middle.
  Qed.
  Lemma split_lookup (c : cont) a x : lookup c a = Some x -> exists l r, c = l ++ (a, x) :: r /\ unlink c a = l ++ r /\
    (forall y, update c a y = l ++ (a, y) :: r) /\ lookup l a = None.
  Proof.
    induction c as [|[b y] c IH]; cbn [lookup unlink update]; [discriminate|]. destruct (Z.eqb_spec b a) as [->|NE].
    - intros [= ->]. exists [], c. repeat split; reflexivity.
    - intros E. destruct (IH E) as (l & r & -> & U & W & L). exists ((b, y) :: l), r. rewrite U.
      repeat split; [intros z; now rewrite W|]. cbn [lookup]. now replace (b =? a) with false by lia.
  Qed.

  (** Where the new node of a sorted container goes. *)
  Lemma insert_sorted_split (lt : A -> A -> bool) (c : cont) n : exists l r, c = l ++ r /\ insert_sorted lt c n = l ++ n :: r /\
    Forall (fun m => lt (snd n) (snd m) = false) l /\ match r with [] => True | m :: _ => lt (snd n) (snd m) = true end.
  Proof.
    induction c as [|m c IH]; cbn [insert_sorted]; [exists [], []; repeat split; constructor|].
    destruct (lt (snd n) (snd m)) eqn:E.
    - exists [], (m :: c). repeat split; [constructor|exact E].
    - destruct IH as (l & r & -> & -> & F & H). exists (m :: l), r. repeat split; [now constructor|exact H].
  Qed.
  Lemma first_node_spec (p : A -> bool) (c : cont) :
    match first_node p c with
    | Some a => exists l x r, c = l ++ (a, x) :: r /\ p x = true /\ Forall (fun m => p (snd m) = false) l
    | None => Forall (fun m => p (snd m) = false) c
    end.
  Proof.
    induction c as [|[a x] c IH]; cbn [first_node]; [constructor|]. destruct (p x) eqn:E.
    - exists [], x, c. repeat split; [exact E|constructor].
    - destruct (first_node p c) as [b|].
      + destruct IH as (l & y & r & -> & P & F). exists ((a, x) :: l), y, r. repeat split; [exact P|now constructor].
      + now constructor.
  Qed.
  Lemma walk_from (c : cont) : forall l, NoDup (map fst (l ++ c)) -> forall fuel, (length c <= fuel)%nat ->
    id_walk fuel (l ++ c) (id_begin c) = Ok (map (fun n => Some (fst n)) c).
  Proof.
    induction c as [|[a x] c IH]; intros l N fuel F; [destruct fuel; reflexivity|].
    destruct fuel as [|fuel]; [cbn in F; lia|]. cbn [id_begin id_walk id_next].
    assert (E : next (l ++ (a, x) :: c) a = Some (id_begin c)).
    { rewrite map_app in N. clear -N. induction l as [|[b y] l IH]; cbn [app next].
      - now rewrite Z.eqb_refl.
      - cbn [map app fst] in N. inversion N as [|? ? NI ND]; subst. destruct (Z.eqb_spec b a) as [->|]; [|apply IH, ND].
        elim NI. apply in_or_app. right. now left. }
    rewrite E. cbn [bind]. replace (l ++ (a, x) :: c) with ((l ++ [(a, x)]) ++ c) in N |- * by now rewrite <- app_assoc.
    rewrite IH; [reflexivity|exact N|cbn in F; lia].
  Qed.
End NodeProofs.
