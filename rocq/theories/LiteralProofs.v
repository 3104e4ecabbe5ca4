(** Integer literals (C12): specification of spellings and proof. *)
From Coq Require Import ZArith List Bool Lia.
From Verif Require Import Outcome NumericModel BitCmpProofs.
Import ListNotations.
Local Open Scope Z_scope.

(** A character (ASCII code) that stands for a digit value. *)
Definition char_value (c d : Z) : Prop :=
  (48 <= c <= 57 /\ d = c - 48)
  \/ (65 <= c <= 70 /\ d = c - 65 + 10)
  \/ (97 <= c <= 102 /\ d = c - 97 + 10).

(** A body of digits with separators ['] (39) anywhere. *)
Inductive spells : list Z -> list Z -> Prop :=
| spells_nil : spells [] []
| spells_sep ds cs : spells ds cs -> spells ds (39 :: cs)
| spells_digit d ds c cs : char_value c d -> spells ds cs -> spells (d :: ds) (c :: cs).

(** C++ integer literal syntax: base, digits and the characters. *)
Inductive literal : Z -> list Z -> list Z -> Prop :=
| lit_hex ds cs c : c = 120 \/ c = 88 -> spells ds cs -> literal 16 ds (48 :: c :: cs)
| lit_bin ds cs c : c = 98 \/ c = 66 -> spells ds cs -> literal 2 ds (48 :: c :: cs)
| lit_oct ds cs : spells ds cs ->
    (forall c r, cs = c :: r -> ~ In c [120; 88; 98; 66]) -> literal 8 ds (48 :: cs)
| lit_dec ds cs : spells ds cs -> (forall r, cs <> 48 :: r) -> literal 10 ds cs.

Lemma lit_digit_spec c d : lit_digit c = Some d <-> char_value c d.
Proof.
  unfold lit_digit, char_value.
  destruct ((97 <=? c) && (c <=? 102)) eqn:E1;
    [|destruct ((65 <=? c) && (c <=? 70)) eqn:E2;
      [|destruct ((48 <=? c) && (c <=? 57)) eqn:E3]];
    (split; [intro H; try discriminate; injection H as <-|intro H; try f_equal]); lia.
Qed.

Lemma filter_digits_spec cs : forall ds, filter_digits cs = Some ds <-> spells ds cs.
Proof.
  induction cs as [|c cs IH]; intro ds; cbn [filter_digits].
  - split; [intro H; injection H as <-; constructor|]. intro H. inversion H. reflexivity.
  - destruct (Z.eqb_spec c 39) as [->|N].
    + rewrite IH. split; [now constructor|]. intro H. inversion H; subst; [assumption|].
      exfalso. unfold char_value in *. lia.
    + split; intro H.
      * destruct (lit_digit c) eqn:E; [|discriminate].
        destruct (filter_digits cs) eqn:F; [|discriminate]. injection H as <-.
        constructor; [now apply lit_digit_spec|now apply IH].
      * inversion H; subst; [congruence|].
        assert (E : lit_digit c = Some d) by now apply lit_digit_spec.
        assert (F : filter_digits cs = Some ds0) by now apply IH.
        now rewrite E, F.
Qed.

Lemma lit_base_spec cs : forall base ds,
  (fst (lit_base cs) = base /\ spells ds (snd (lit_base cs))) <-> literal base ds cs.
Proof.
  assert (D : forall cs : list Z, (forall r, cs <> 48 :: r) -> lit_base cs = (10, cs)).
  { intros l N. unfold lit_base. destruct l as [|z l]; [reflexivity|].
    destruct (Z.eq_dec z 48) as [->|Nz]; [now destruct (N l)|].
    destruct z; try reflexivity.
    do 6 (destruct p; try reflexivity). now destruct Nz. }
  intros base ds. destruct cs as [|z cs].
  - simpl. split.
    + intros [<- H]. constructor; [assumption|discriminate].
    + intro H. inversion H; subst; auto.
  - destruct (Z.eq_dec z 48) as [->|Nz].
    + destruct cs as [|c cs].
      * simpl. split.
        -- intros [<- H]. constructor; [assumption|discriminate].
        -- intro H. inversion H; subst; [auto|]. now destruct (H1 []).
      * cbn [lit_base].
        destruct ((c =? 88) || (c =? 120)) eqn:E1; [|destruct ((c =? 98) || (c =? 66)) eqn:E2];
          cbn [fst snd].
        -- split.
           ++ intros [<- H]. apply lit_hex; [lia|assumption].
           ++ intro H. inversion H; subst; auto; try lia.
              ** exfalso. destruct (H4 c cs eq_refl). simpl. lia.
              ** exfalso. now destruct (H1 (c :: cs)).
        -- split.
           ++ intros [<- H]. apply lit_bin; [lia|assumption].
           ++ intro H. inversion H; subst; auto; try lia.
              ** exfalso. destruct (H4 c cs eq_refl). simpl. lia.
              ** exfalso. now destruct (H1 (c :: cs)).
        -- split.
           ++ intros [<- H]. apply lit_oct; [assumption|]. intros c' r E. injection E as <- <-.
              simpl. lia.
           ++ intro H. inversion H; subst; auto; try lia.
              exfalso. now destruct (H1 (c :: cs)).
    + rewrite D by (intros r E; injection E; congruence). simpl. split.
      * intros [<- H]. constructor; [assumption|]. intros r E. injection E; congruence.
      * intro H. inversion H; subst; auto; congruence.
Qed.

Lemma str_to_constant_spec umax tmax cs v :
  0 <= tmax <= umax ->
  str_to_constant umax tmax cs = Some v <->
  exists base ds, literal base ds cs /\ digits_ok base ds
                  /\ v = numeral base ds /\ v <= tmax.
Proof.
  intro Hm. unfold str_to_constant.
  destruct (lit_base cs) as [base rest] eqn:EB.
  assert (Hbase : 1 < base).
  { assert (H : base = fst (lit_base cs)) by now rewrite EB.
    unfold lit_base in H. destruct cs as [|z cs]; [simpl in H; lia|].
    destruct (Z.eq_dec z 48) as [->|Nz].
    - destruct cs as [|c cs]; [simpl in H; lia|].
      destruct ((c =? 88) || (c =? 120)); [simpl in H; lia|].
      destruct ((c =? 98) || (c =? 66)); simpl in H; lia.
    - destruct z; try (simpl in H; lia).
      repeat (destruct p; try (simpl in H; lia)). }
  split.
  - destruct (filter_digits rest) as [ds|] eqn:F; [|discriminate].
    destruct (lit_fold umax base 0 ds) as [v'|] eqn:G; [|discriminate].
    destruct (Z.leb_spec v' tmax); [|discriminate]. intro E. injection E as ->.
    apply lit_fold_spec in G; [|lia|lia|lia]. destruct G as (A & B & C).
    exists base, ds. split; [|auto]. apply lit_base_spec. rewrite EB. simpl.
    split; [reflexivity|now apply filter_digits_spec].
  - intros (base' & ds & L & A & B & C). apply lit_base_spec in L. rewrite EB in L.
    simpl in L. destruct L as [-> S]. apply filter_digits_spec in S. rewrite S.
    assert (G : lit_fold umax base' 0 ds = Some v).
    { apply lit_fold_spec; [lia|lia|lia|]. repeat split; auto; lia. }
    rewrite G. destruct (Z.leb_spec v tmax); [reflexivity|lia].
Qed.
