(** Possible results of running a modelled C++ function. *)
From Coq Require Import ZArith List Bool.
Import ListNotations.

(** [Ok a]      : normal return;
    [AssertFail]: an AC_ASSERT failed (AC_ASSERT.hpp:16-22, debug build);
    [Throw]     : a C++ exception was thrown;
    [UB]        : undefined behaviour was reached;
    [NoFuel]    : artefact of the model, a loop did not end within its fuel. *)
Inductive outcome (A : Type) : Type :=
| Ok (a : A)
| AssertFail
| Throw
| UB
| NoFuel.

Arguments Ok {A} a.
Arguments AssertFail {A}.
Arguments Throw {A}.
Arguments UB {A}.
Arguments NoFuel {A}.

Definition bind {A B} (m : outcome A) (f : A -> outcome B) : outcome B :=
  match m with
  | Ok a => f a
  | AssertFail => AssertFail
  | Throw => Throw
  | UB => UB
  | NoFuel => NoFuel
  end.

Definition omap {A B} (f : A -> B) (m : outcome A) : outcome B :=
  bind m (fun a => Ok (f a)).

(** AC_ASSERT(c) followed by the rest of the function. *)
Definition assert_then {A} (c : bool) (k : outcome A) : outcome A :=
  if c then k else AssertFail.

Notation "'do' x <- m ; k" := (bind m (fun x => k))
  (at level 200, x pattern, m at level 100, k at level 200, right associativity).

Lemma bind_Ok {A B} (m : outcome A) (f : A -> outcome B) b :
  bind m f = Ok b <-> exists a, m = Ok a /\ f a = Ok b.
Proof.
  destruct m; simpl; split; intro H; try discriminate.
  - eauto.
  - destruct H as (a' & E & H). now injection E as <-.
  - now destruct H as (? & ? & ?).
  - now destruct H as (? & ? & ?).
  - now destruct H as (? & ? & ?).
  - now destruct H as (? & ? & ?).
Qed.
