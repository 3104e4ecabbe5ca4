(** C++ integer types: width, signedness, conversions and arithmetic. *)
From Coq Require Import ZArith Bool Lia.
From Verif Require Import Outcome.
Local Open Scope Z_scope.

Record ity := { bits : Z; sgn : bool }.

Definition ilow (t : ity) : Z := if sgn t then - 2 ^ (bits t - 1) else 0.
Definition ihigh (t : ity) : Z := if sgn t then 2 ^ (bits t - 1) else 2 ^ bits t.

(** Values of the type. *)
Definition in_ity (t : ity) (z : Z) : Prop := ilow t <= z < ihigh t.
Definition in_ityb (t : ity) (z : Z) : bool := (ilow t <=? z) && (z <? ihigh t).

(** Conversion to the type (modular since C++20). *)
Definition wrap (t : ity) (z : Z) : Z := (z - ilow t) mod 2 ^ bits t + ilow t.

(** The result of an arithmetic operation computed in the type: unsigned
    types wrap, signed overflow is undefined behaviour. *)
Definition iarith (t : ity) (z : Z) : outcome Z :=
  if in_ityb t z then Ok z else if sgn t then UB else Ok (wrap t z).

Definition int32 : ity := {| bits := 32; sgn := true |}.
Definition uint32 : ity := {| bits := 32; sgn := false |}.
Definition int64 : ity := {| bits := 64; sgn := true |}.
Definition uint64 : ity := {| bits := 64; sgn := false |}.
Definition int8 : ity := {| bits := 8; sgn := true |}.
Definition uint8 : ity := {| bits := 8; sgn := false |}.
Definition size_type : ity := uint64.

(** Integral promotion of operands (types narrower than int). *)
Definition promote (t : ity) : ity := if bits t <? 32 then int32 else t.

Lemma in_ityb_spec t z : in_ityb t z = true <-> in_ity t z.
Proof. unfold in_ityb, in_ity. rewrite andb_true_iff, Z.leb_le, Z.ltb_lt. reflexivity. Qed.

Lemma ity_span t : 0 < bits t -> ihigh t = ilow t + 2 ^ bits t.
Proof.
  intro H. unfold ihigh, ilow. destruct (sgn t); [|lia].
  replace (bits t) with (1 + (bits t - 1)) at 3 by lia.
  rewrite Z.pow_add_r by lia. change (2 ^ 1) with 2. lia.
Qed.

Lemma wrap_in t z : 0 < bits t -> in_ity t (wrap t z).
Proof.
  intro H. unfold in_ity, wrap. rewrite ity_span by assumption.
  pose proof (Z.mod_pos_bound (z - ilow t) (2 ^ bits t) ltac:(apply Z.pow_pos_nonneg; lia)). lia.
Qed.

Lemma wrap_id t z : 0 < bits t -> in_ity t z -> wrap t z = z.
Proof.
  intros H Hz. unfold wrap. unfold in_ity in Hz. rewrite ity_span in Hz by assumption.
  rewrite Z.mod_small by lia. lia.
Qed.

Lemma wrap_congr t a b : 0 < bits t -> a mod 2 ^ bits t = b mod 2 ^ bits t -> wrap t a = wrap t b.
Proof.
  intros H E. unfold wrap. rewrite (Zminus_mod a), (Zminus_mod b), E. reflexivity.
Qed.

Lemma wrap_mod t a : 0 < bits t -> wrap t a mod 2 ^ bits t = a mod 2 ^ bits t.
Proof.
  intros H. unfold wrap.
  rewrite Zplus_mod, Z.mod_mod by (apply Z.pow_nonzero; lia).
  rewrite <- Zplus_mod. f_equal. lia.
Qed.

Lemma iarith_in t z : in_ity t z -> iarith t z = Ok z.
Proof. intro H. unfold iarith. apply in_ityb_spec in H. now rewrite H. Qed.

Lemma iarith_unsigned t z : 0 < bits t -> sgn t = false -> iarith t z = Ok (wrap t z).
Proof.
  intros H S. unfold iarith. rewrite S. destruct (in_ityb t z) eqn:E; [|reflexivity].
  apply in_ityb_spec in E. now rewrite wrap_id.
Qed.

Lemma iarith_signed t z : sgn t = true -> ~ in_ity t z -> iarith t z = UB.
Proof.
  intros S H. unfold iarith. rewrite S. destruct (in_ityb t z) eqn:E; [|reflexivity].
  apply in_ityb_spec in E. contradiction.
Qed.
