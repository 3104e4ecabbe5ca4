(** Model of numeric/random/rng_decorator.hpp over xoroshiro128cplus. *)
From Coq Require Import ZArith Bool List Lia.
From Verif Require Import Outcome IntTypes NumericModel.
Import ListNotations.
Local Open Scope Z_scope.

(** The 64-bit words. *)
Notation word := uint64.

(** rng_decorator.hpp:54-56: the characters are added to the first word, negative ones extended. *)
Fixpoint add_chars (st : Z * Z) (value : list Z) : Z * Z :=
  match value with
  | [] => st
  | c :: value => add_chars (IntTypes.wrap word (fst st + IntTypes.wrap word c), snd st) value
  end.

(** rng_decorator.hpp:48-58, one round of the loop: the state of default_rng and of the generator
    after the round, and the condition. *)
Definition seed_round (default_rng : Z * Z) (value : list Z) : (Z * Z) * (Z * Z) * bool :=
  let default_rng := fst (xoroshiro_step default_rng) in
  let base := default_rng in
  let base := add_chars base value in
  let (base, r1) := xoroshiro_step base in
  let (base, r2) := xoroshiro_step base in
  (default_rng, base, r1 =? r2).
Fixpoint seed_loop (fuel : nat) (default_rng : Z * Z) (value : list Z) : outcome (Z * Z) :=
  match fuel with
  | O => NoFuel
  | S fuel =>
      let '(default_rng, base, again) := seed_round default_rng value in
      if again then seed_loop fuel default_rng value else Ok base
  end.
(** The state of the generator before does not take part. *)
(* numeric/random/rng_decorator.hpp:48-58 *)
Definition seed (fuel : nat) (value : list Z) : outcome (Z * Z) := seed_loop fuel xoroshiro_init value.

(** rng_decorator.hpp:24-32 for integers of at least the size of int (for smaller ones [to - 1] is an
    int and does not narrow to the type of the bounds inside of braces). The distribution of the
    standard library is an argument: it is asked for a number from a to b. *)
Section Uniform.
  Variable State : Type.
  Variable draw : Z -> Z -> State -> Z * State.

  Definition uniform (t : ity) (from to : Z) (s : State) : outcome (Z * State) :=
    do last <- iarith t (to - 1);
    if from <=? last then Ok (draw from last s) else UB.
  (** rng_decorator.hpp:35-38 *)
  Definition uniform0 (t : ity) (to : Z) (s : State) : outcome (Z * State) := uniform t 0 to s.
End Uniform.
