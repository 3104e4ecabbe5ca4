(** Lemmas on iterators over devices. *)
From Coq Require Import ZArith List Bool Lia.
From Verif Require Import Outcome DevIterModel.
Import ListNotations.

Section Input.
  Context {D T : Type} (read : D -> T -> outcome (D * option T)).

  (** [succeeds d x l d1 y]: reading again and again from [d] into an object that holds
      [x] gives the values [l]; the device is then [d1] and the object holds [y]. *)
  Inductive succeeds : D -> T -> list T -> D -> T -> Prop :=
  | succeeds_nil d x : succeeds d x [] d x
  | succeeds_cons d x d1 v l d2 y : read d x = Ok (d1, Some v) -> succeeds d1 v l d2 y -> succeeds d x (v :: l) d2 y.

  Lemma take_two k d old it : ii_take read (S (S k)) d old it
    = do v <- ii_deref it; do (d1, it1) <- ii_next read d old it; do (l, r) <- ii_take read (S k) d1 old it1; Ok (v :: l, r).
  Proof. reflexivity. Qed.

  Lemma take_more old l : forall d d1 y v, succeeds d v l d1 y ->
    ii_take read (S (length l)) d old {| ii_open := true; ii_value := Some v |}
    = Ok (v :: l, (d1, {| ii_open := true; ii_value := Some y |})).
  Proof.
    induction l as [|w l IH]; intros d d1 y v H; inversion H as [|? ? d0 ? ? ? ? R H']; subst; [reflexivity|].
    cbn [length]. rewrite take_two. unfold ii_next. cbn [ii_deref ii_open assert_then ii_value bind].
    rewrite R. cbn [bind]. rewrite (IH _ _ _ _ H'). reflexivity.
  Qed.

  Lemma make_take old l d d1 y : l <> [] -> succeeds d old l d1 y ->
    exists d0 it, ii_make read d old = Ok (d0, it)
      /\ ii_take read (length l) d0 old it = Ok (l, (d1, {| ii_open := true; ii_value := Some y |})).
  Proof.
    intros N H. inversion H as [|? ? d0 v l' ? ? R H']; subst; [easy|].
    exists d0, {| ii_open := true; ii_value := Some v |}. split.
    - unfold ii_make, ii_next. cbn [ii_open assert_then ii_value]. rewrite R. reflexivity.
    - apply (take_more old l' _ _ _ _ H').
  Qed.

  Lemma next_fails d d1 y old : read d y = Ok (d1, None) ->
    ii_next read d old {| ii_open := true; ii_value := Some y |} = Ok (d1, {| ii_open := false; ii_value := None |}).
  Proof. intro R. unfold ii_next. cbn. now rewrite R. Qed.

  Lemma make_fails d d1 old : read d old = Ok (d1, None) ->
    ii_make read d old = Ok (d1, {| ii_open := false; ii_value := None |}).
  Proof. intro R. unfold ii_make, ii_next. cbn. now rewrite R. Qed.

  Lemma succeeds_snoc d x l d1 y d2 v : succeeds d x l d1 y -> read d1 y = Ok (d2, Some v) -> succeeds d x (l ++ [v]) d2 v.
  Proof.
    induction 1 as [|d x d0 w l d1 y R H IH]; intro R'; cbn.
    - econstructor; [exact R'|constructor].
    - econstructor; [exact R|auto].
  Qed.
End Input.
