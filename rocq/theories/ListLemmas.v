(** List lemmas missing from the standard library of Coq 8.16. *)
From Coq Require Import List Lia PeanoNat.
Import ListNotations.

Section L.
  Context {A : Type}.

  Lemma nth_error_firstn_lt : forall n (x : list A) i, i < n -> nth_error (firstn n x) i = nth_error x i.
  Proof.
    induction n; intros x i Hi; [lia|]. destruct x; simpl; [now destruct i|].
    destruct i; [reflexivity|]. simpl. apply IHn. lia.
  Qed.

  Lemma nth_error_skipn_add : forall n (x : list A) i, nth_error (skipn n x) i = nth_error x (n + i).
  Proof.
    induction n; intros x i; [reflexivity|]. destruct x; simpl; [now destruct i|]. apply IHn.
  Qed.

  Lemma skipn_skipn_add : forall (l : list A) a b, skipn b (skipn a l) = skipn (b + a) l.
  Proof.
    induction l as [|x l IH]; intros a b; [now rewrite !skipn_nil|].
    destruct a; [rewrite Nat.add_0_r; reflexivity|].
    replace (b + S a) with (S (b + a)) by lia. cbn [skipn]. apply IH.
  Qed.

  Lemma filter_nil_forall (p : A -> bool) l : Forall (fun x => p x = false) l -> filter p l = [].
  Proof. induction 1 as [|x l H _ IH]; simpl; [reflexivity|]. now rewrite H. Qed.

  Lemma skipn_cons_nth (xs : list A) p a : nth_error xs p = Some a -> skipn p xs = a :: skipn (S p) xs.
  Proof.
    revert p. induction xs as [|x xs IH]; intros [|p] H; simpl in *; try discriminate.
    - now injection H as ->.
    - now apply IH.
  Qed.

  Lemma firstn_snoc_nth (xs : list A) p a : nth_error xs p = Some a -> firstn (S p) xs = firstn p xs ++ [a].
  Proof.
    revert p. induction xs as [|x xs IH]; intros [|p] H; simpl in *; try discriminate.
    - now injection H as ->.
    - f_equal. now apply IH.
  Qed.

  Lemma list_ext_nth (l r : list A) : (forall i, nth_error l i = nth_error r i) -> l = r.
  Proof.
    revert r. induction l as [|x l IH]; intros [|y r] H; try reflexivity.
    - specialize (H 0). discriminate.
    - specialize (H 0). discriminate.
    - pose proof (H 0) as E. injection E as ->. f_equal. apply IH. intro i. exact (H (S i)).
  Qed.
End L.

(** Replacing the element at a position. *)
Fixpoint list_set {A} (l : list A) (i : nat) (x : A) : list A :=
  match l, i with
  | [], _ => []
  | _ :: l, O => x :: l
  | y :: l, S i => y :: list_set l i x
  end.

Lemma list_set_length {A} : forall (l : list A) i x, length (list_set l i x) = length l.
Proof. induction l; intros [|i] x; simpl; auto. Qed.

Lemma list_set_same {A} : forall (l : list A) i x, i < length l -> nth_error (list_set l i x) i = Some x.
Proof. induction l; intros [|i] x H; simpl in *; try lia; [reflexivity|]. apply IHl. lia. Qed.

Lemma list_set_other {A} : forall (l : list A) i j x, i <> j -> nth_error (list_set l i x) j = nth_error l j.
Proof. induction l; intros [|i] [|j] x H; simpl in *; try congruence; try reflexivity. apply IHl. congruence. Qed.

Lemma list_set_eq {A} (l : list A) i x : i < length l -> list_set l i x = firstn i l ++ x :: skipn (S i) l.
Proof.
  revert i. induction l as [|y l IH]; intros [|i] H; simpl in *; try lia; [reflexivity|].
  f_equal. apply IH. lia.
Qed.
