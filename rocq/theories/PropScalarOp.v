(** C122: operations on integers declared to be associative and commutative, their identity
    elements, allow_promotion and inout arguments. *)
From Coq Require Import ZArith Bool Lia List.
From Verif Require Import Outcome IntTypes IterModel IterProofs ScalarOpModel.
Import ListNotations.
Local Open Scope Z_scope.

(** A value of an integer type of 8 to 64 bits. *)
Definition typed (x : tval) : Prop := ctype (tty x) /\ in_ity (tty x) (tz x).

Lemma ity_eq (a b : ity) : bits a = bits b -> sgn a = sgn b -> a = b.
Proof. destruct a, b. cbn. now intros -> ->. Qed.
(** Types ordered by conversion: int < unsigned < long < unsigned long. *)
Definition rank (t : ity) : Z := 2 * bits t + (if sgn t then 0 else 1).
Lemma rank_inj a b : rank a = rank b -> a = b.
Proof. unfold rank. intros E. apply ity_eq; destruct (sgn a), (sgn b); lia || reflexivity. Qed.
Lemma common_max a b : common a b = if rank a <? rank b then b else a.
Proof.
  unfold common, rank. destruct (sgn a) eqn:A, (sgn b) eqn:B; cbn [Bool.eqb];
    repeat match goal with |- context [?x <? ?y] => destruct (Z.ltb_spec x y) | |- context [?x <=? ?y] => destruct (Z.leb_spec x y) end;
    try lia; reflexivity.
Qed.
Lemma common_comm a b : common a b = common b a.
Proof.
  rewrite !common_max. destruct (Z.ltb_spec (rank a) (rank b)), (Z.ltb_spec (rank b) (rank a)); try lia; auto.
  apply rank_inj. lia.
Qed.
Lemma common_assoc a b c : common (common a b) c = common a (common b c).
Proof.
  rewrite !common_max. destruct (Z.ltb_spec (rank a) (rank b)); destruct (Z.ltb_spec (rank b) (rank c));
    repeat match goal with |- context [?x <? ?y] => destruct (Z.ltb_spec x y) end; try lia; auto.
Qed.
Lemma common_refl a : common a a = a.
Proof. rewrite common_max. now rewrite Z.ltb_irrefl. Qed.
(** The type of an arithmetic result. *)
Definition rtype (x y : tval) : ity := common (promote (tty x)) (promote (tty y)).
Lemma rtype_bits x y : typed x -> typed y -> 32 <= bits (rtype x y) <= 64 /\ bits (tty x) <= bits (rtype x y) /\ bits (tty y) <= bits (rtype x y).
Proof.
  intros [Cx _] [Cy _]. unfold rtype. destruct (promote_ctype _ Cx) as (A1 & A2 & A3), (promote_ctype _ Cy) as (B1 & B2 & B3).
  destruct (common_cases (promote (tty x)) (promote (tty y))) as [[H1 H2] _]. unfold ctype in *.
  assert (bits (common (promote (tty x)) (promote (tty y))) <= 64) by (rewrite common_max; destruct (_ <? _); lia). lia.
Qed.
Lemma promote_rtype x y : typed x -> typed y -> promote (rtype x y) = rtype x y.
Proof. intros X Y. apply promote_id. now apply rtype_bits. Qed.

Lemma testbit_wrap t z i : 0 < bits t -> 0 <= i < bits t -> Z.testbit (wrap t z) i = Z.testbit z i.
Proof.
  intros B I. rewrite <- (Z.mod_pow2_bits_low (wrap t z) (bits t)) by lia.
  rewrite wrap_mod by lia. apply Z.mod_pow2_bits_low. lia.
Qed.
Lemma wrap_bits t a b : 0 < bits t -> (forall i, 0 <= i < bits t -> Z.testbit a i = Z.testbit b i) -> wrap t a = wrap t b.
Proof.
  intros B H. apply wrap_congr; [lia|]. apply Z.bits_inj'. intros i I.
  destruct (Z.lt_ge_cases i (bits t)); [rewrite !Z.mod_pow2_bits_low by lia; apply H; lia|].
  now rewrite !Z.mod_pow2_bits_high by lia.
Qed.
Lemma wrap_wrap t z : 0 < bits t -> wrap t (wrap t z) = wrap t z.
Proof. intros B. apply wrap_id; auto. now apply wrap_in. Qed.

(** *** What the operations compute *)
Definition arith (o : bop) : option (Z -> Z -> Z) := match o with Add => Some Z.add | Multiply => Some Z.mul | _ => None end.
Definition bitwise (o : bop) : option (bool -> bool -> bool) :=
  match o with BitAnd => Some andb | BitOr => Some orb | BitXor => Some xorb | _ => None end.

Lemma arith_congr o f t a b : arith o = Some f -> 0 < bits t -> wrap t (f (wrap t a) (wrap t b)) = wrap t (f a b).
Proof. destruct o; intros E; try discriminate; injection E as <-; intros; [now apply wrap_add_congr|now apply wrap_mul_congr]. Qed.
Lemma evaluate_arith o f x y : arith o = Some f -> evaluate o x y = tbin f x y.
Proof. destruct o; intros E; try discriminate; injection E as <-; reflexivity. Qed.
Lemma iarith_wrap t z w : 0 < bits t -> iarith t z = Ok w -> w = wrap t z /\ (sgn t = true -> w = z).
Proof.
  intros B E. unfold iarith in E. destruct (in_ityb t z) eqn:I.
  - injection E as <-. apply in_ityb_spec in I. rewrite wrap_id by auto. auto.
  - destruct (sgn t); [discriminate|]. injection E as <-. split; [reflexivity|discriminate].
Qed.
(** Sums and products: the true value modulo the width of the common type. *)
Theorem C122_arithmetic : forall o f x y r, arith o = Some f -> typed x -> typed y -> evaluate o x y = Ok r ->
  tty r = rtype x y /\ typed r /\ tz r = wrap (rtype x y) (f (tz x) (tz y)).
Proof.
  intros o f x y r A X Y E. rewrite (evaluate_arith o f) in E by exact A. unfold tbin in E. fold (rtype x y) in E.
  pose proof (rtype_bits x y X Y) as (B & _). destruct (iarith _ _) as [z| | | |] eqn:I; try discriminate. injection E as <-. cbn [tty tz].
  apply iarith_wrap in I as [I _]; [|lia]. unfold tconv in I. rewrite (arith_congr o f) in I by (auto; lia).
  repeat split; auto; cbn [tty tz]; unfold ctype; try lia; rewrite I; apply wrap_in; lia.
Qed.
(** Bitwise operations: bit by bit, where negative numbers have infinitely many ones. *)
Theorem C122_bits : forall o f x y, bitwise o = Some f -> typed x -> typed y ->
  exists r, evaluate o x y = Ok r /\ tty r = rtype x y /\ typed r /\
    forall i, 0 <= i < bits (tty r) -> Z.testbit (tz r) i = f (Z.testbit (tz x) i) (Z.testbit (tz y) i).
Proof.
  intros o f x y F X Y. pose proof (rtype_bits x y X Y) as (B & _).
  destruct o; try discriminate; injection F as <-; (eexists; split; [reflexivity|]); unfold tbit; fold (rtype x y); cbn [tty tz];
    (split; [reflexivity|]); (split; [split; [unfold ctype; cbn; lia|cbn; apply wrap_in; lia]|]); intros i I;
    rewrite testbit_wrap by lia; rewrite ?Z.land_spec, ?Z.lor_spec, ?Z.lxor_spec; unfold tconv; now rewrite !testbit_wrap by lia.
Qed.
Theorem C122_not : forall x, typed x -> tty (bit_not x) = promote (tty x) /\ typed (bit_not x) /\
  forall i, 0 <= i < bits (promote (tty x)) -> Z.testbit (tz (bit_not x)) i = negb (Z.testbit (tz x) i).
Proof.
  intros x [C I]. destruct (promote_ctype _ C) as (P & P32 & _). unfold ctype in P.
  split; [reflexivity|]. split; [split; [exact P|cbn; apply wrap_in; lia]|].
  intros i B. cbn [bit_not tz]. rewrite testbit_wrap by lia. now rewrite Z.lnot_spec by lia.
Qed.
(** Both operands are represented exactly if the common type is signed. *)
Lemma exact_signed x y : typed x -> typed y -> sgn (rtype x y) = true -> in_ity (rtype x y) (tz x) /\ in_ity (rtype x y) (tz y).
Proof.
  intros [Cx Ix] [Cy Iy] S. unfold rtype in *.
  destruct (promote_ctype _ Cx) as (Px & Px32 & _), (promote_ctype _ Cy) as (Py & Py32 & _).
  destruct (common_cases (promote (tty x)) (promote (tty y))) as ([B1 B2] & _ & H). destruct (H S) as [H1 H2].
  split; [apply in_signed with (promote (tty x)) | apply in_signed with (promote (tty y))]; auto; try lia; now apply promote_in.
Qed.
(** Undefined exactly if the true result is not representable in a signed common type. *)
Theorem C122_overflow : forall o f x y, arith o = Some f -> typed x -> typed y ->
  (evaluate o x y = UB <-> sgn (rtype x y) = true /\ ~ in_ity (rtype x y) (f (tz x) (tz y))) /\
  (evaluate o x y = UB \/ exists r, evaluate o x y = Ok r).
Proof.
  intros o f x y A X Y. rewrite (evaluate_arith o f) by exact A. unfold tbin. fold (rtype x y).
  pose proof (rtype_bits x y X Y) as (B & _). set (R := rtype x y) in *. destruct (sgn R) eqn:S.
  - destruct (exact_signed x y X Y S) as [Ex Ey]. fold R in Ex, Ey. unfold tconv. rewrite !wrap_id by (auto; lia).
    unfold iarith. rewrite S. destruct (in_ityb R (f (tz x) (tz y))) eqn:I; cbn [bind].
    + apply in_ityb_spec in I. split; [split; [discriminate|tauto]|]. right. eauto.
    + split; [split; auto|now left]. intros _. split; auto. intros J. apply in_ityb_spec in J. congruence.
  - rewrite iarith_unsigned by (auto; lia). cbn [bind]. split; [split; [discriminate|intros [D _]; discriminate]|]. right. eauto.
Qed.

(** *** Commutativity *)
Lemma cond_comm a b : cond_type a b = cond_type b a.
Proof.
  unfold cond_type. rewrite (Z.eqb_sym (bits b)). rewrite common_comm.
  destruct (Z.eqb_spec (bits a) (bits b)), (sgn a) eqn:A, (sgn b) eqn:B; cbn; try reflexivity; apply ity_eq; congruence.
Qed.
Lemma cond_cases x y : typed x -> typed y -> (tty x = tty y /\ cond_type (tty x) (tty y) = tty x) \/ cond_type (tty x) (tty y) = rtype x y.
Proof.
  intros _ _. unfold cond_type. fold (rtype x y). destruct (Z.eqb_spec (bits (tty x)) (bits (tty y))) as [E|]; [|now right].
  destruct (Bool.eqb (sgn (tty x)) (sgn (tty y))) eqn:S; [|now right]. apply eqb_prop in S. left. split; [now apply ity_eq|reflexivity].
Qed.
Lemma cond_bits x y : typed x -> typed y -> 0 < bits (cond_type (tty x) (tty y)) <= bits (rtype x y).
Proof.
  intros X Y. pose proof (rtype_bits x y X Y) as (B & B1 & _). destruct (cond_cases x y X Y) as [[_ ->]| ->]; [|lia].
  destruct X as [C _]. unfold ctype in C. lia.
Qed.
Lemma rtype_comm x y : rtype x y = rtype y x. Proof. apply common_comm. Qed.
Lemma tie x y : typed x -> typed y -> wrap (rtype x y) (tz x) = wrap (rtype x y) (tz y) ->
  as_ (cond_type (tty x) (tty y)) x = as_ (cond_type (tty x) (tty y)) y.
Proof.
  intros X Y E. unfold as_. f_equal. pose proof (cond_bits x y X Y) as B.
  rewrite <- (wrap_wrap_congr _ (rtype x y)) by lia. rewrite E. apply wrap_wrap_congr; lia.
Qed.
Theorem C122_commutative : forall o x y, typed x -> typed y -> evaluate o x y = evaluate o y x.
Proof.
  intros o x y X Y. pose proof (tie x y X Y) as T.
  destruct o; cbn [evaluate]; unfold tbin, tbit, tcmp; fold (rtype x y); fold (rtype y x); rewrite (rtype_comm y x), ?(cond_comm (tty y)).
  - now rewrite Z.add_comm.
  - now rewrite Z.mul_comm.
  - now rewrite Z.land_comm.
  - now rewrite Z.lor_comm.
  - now rewrite Z.lxor_comm.
  - unfold tconv. destruct (Z.ltb_spec (wrap (rtype x y) (tz y)) (wrap (rtype x y) (tz x))), (Z.ltb_spec (wrap (rtype x y) (tz x)) (wrap (rtype x y) (tz y)));
      try lia; try reflexivity. rewrite T by lia. reflexivity.
  - unfold tconv. destruct (Z.ltb_spec (wrap (rtype x y) (tz y)) (wrap (rtype x y) (tz x))), (Z.ltb_spec (wrap (rtype x y) (tz x)) (wrap (rtype x y) (tz y)));
      try lia; try reflexivity. rewrite T by lia. reflexivity.
Qed.

(** *** Associativity *)
Lemma shift_range n a : 0 < n -> (- 2 ^ (n - 1) <= a < 2 ^ (n - 1) <-> Z.shiftr a (n - 1) = 0 \/ Z.shiftr a (n - 1) = -1).
Proof.
  intros N. rewrite Z.shiftr_div_pow2 by lia. assert (P : 0 < 2 ^ (n - 1)) by (apply Z.pow_pos_nonneg; lia).
  set (p := 2 ^ (n - 1)) in *. pose proof (Z.div_mod a p ltac:(lia)) as D. pose proof (Z.mod_pos_bound a p P) as M. split; intros H.
  - assert (-1 <= a / p < 1). { split; [apply Z.div_le_lower_bound; lia|apply Z.div_lt_upper_bound; lia]. } lia.
  - destruct H as [H|H]; rewrite H in D; lia.
Qed.
Lemma land_in x y : typed x -> typed y -> in_ity (rtype x y) (Z.land (tz x) (tz y)).
Proof.
  intros X Y. pose proof (rtype_bits x y X Y) as (B & B1 & B2). destruct (sgn (rtype x y)) eqn:S.
  - destruct (exact_signed x y X Y S) as [Ex Ey]. unfold in_ity, ilow, ihigh in *. rewrite S in *.
    apply shift_range in Ex; [|lia]. apply shift_range in Ey; [|lia]. apply shift_range; [lia|]. rewrite Z.shiftr_land.
    destruct Ex as [->| ->], Ey as [->| ->]; cbn; auto.
  - assert (U : forall u v, typed u -> 32 <= bits (promote (tty u)) -> promote (tty u) = rtype x y -> 0 <= Z.land (tz u) v < 2 ^ bits (rtype x y)).
    { intros u v [Cu Iu] _ E. apply promote_in in Iu; auto. rewrite E in Iu. unfold in_ity, ilow, ihigh in Iu. rewrite S in Iu.
      split; [apply Z.land_nonneg; lia|].
      replace (Z.land (tz u) v) with (Z.land (tz u) (Z.land v (Z.ones (bits (rtype x y))))).
      - rewrite Z.land_ones by lia. pose proof (Z.mod_pos_bound v (2 ^ bits (rtype x y)) ltac:(apply Z.pow_pos_nonneg; lia)) as M.
        rewrite <- Z.land_ones in * by lia.
        assert (L : Z.land (tz u) (Z.land v (Z.ones (bits (rtype x y)))) = Z.land (Z.land (tz u) v) (Z.ones (bits (rtype x y)))) by now rewrite Z.land_assoc.
        rewrite L, Z.land_ones by lia. apply Z.mod_pos_bound. apply Z.pow_pos_nonneg; lia.
      - rewrite Z.land_assoc, Z.land_ones by lia. rewrite <- (Z.mod_small (tz u) (2 ^ bits (rtype x y))) at 2 by lia.
        rewrite <- !Z.land_ones by lia. apply Z.bits_inj'. intros i Hi. rewrite !Z.land_spec. destruct (Z.testbit (tz u) i), (Z.testbit v i), (Z.testbit (Z.ones (bits (rtype x y))) i); reflexivity. }
    unfold in_ity, ilow, ihigh. rewrite S. destruct (common_cases (promote (tty x)) (promote (tty y))) as (_ & [E|E] & _).
    + apply U; auto. destruct X as [C _]. now apply promote_ctype.
    + rewrite Z.land_comm. apply U; auto. destruct Y as [C _]. now apply promote_ctype.
Qed.
(** Conjunction is that of the numbers whatever the types. *)
Lemma and_exact x y : typed x -> typed y -> tbit Z.land x y = {| tty := rtype x y; tz := Z.land (tz x) (tz y) |}.
Proof.
  intros X Y. unfold tbit. fold (rtype x y). f_equal. pose proof (rtype_bits x y X Y) as (B & _).
  rewrite <- (wrap_id (rtype x y) (Z.land (tz x) (tz y))) by (try lia; now apply land_in).
  apply wrap_bits; [lia|]. intros i I. rewrite !Z.land_spec. unfold tconv. now rewrite !testbit_wrap by lia.
Qed.
(** The exact minimum and maximum where both values are representable. *)
Lemma min_max_value x y : typed x -> typed y -> in_ity (rtype x y) (tz x) -> in_ity (rtype x y) (tz y) ->
  let c := cond_type (tty x) (tty y) in
  evaluate Min x y = Ok {| tty := c; tz := Z.min (tz x) (tz y) |} /\ evaluate Max x y = Ok {| tty := c; tz := Z.max (tz x) (tz y) |}.
Proof.
  intros X Y Ix Iy c. pose proof (rtype_bits x y X Y) as (B & _). pose proof (cond_bits x y X Y) as Bc. fold c in Bc.
  assert (Cx : wrap c (tz x) = tz x).
  { apply wrap_id; [lia|]. unfold c. destruct (cond_cases x y X Y) as [[_ ->]| ->]; [apply X|exact Ix]. }
  assert (Cy : wrap c (tz y) = tz y).
  { apply wrap_id; [lia|]. unfold c. destruct (cond_cases x y X Y) as [[E ->]| ->]; [rewrite E; apply Y|exact Iy]. }
  cbn [evaluate]. fold c. unfold tcmp. fold (rtype x y). fold (rtype y x). rewrite (rtype_comm y x). unfold tconv. rewrite !wrap_id by (auto; lia).
  unfold as_. split.
  - destruct (Z.ltb_spec (tz y) (tz x)); [rewrite Cy, Z.min_r by lia | rewrite Cx, Z.min_l by lia]; reflexivity.
  - destruct (Z.ltb_spec (tz x) (tz y)); [rewrite Cy, Z.max_r by lia | rewrite Cx, Z.max_l by lia]; reflexivity.
Qed.
Theorem C122_min_max : forall x y, typed x -> typed y -> sgn (rtype x y) = true \/ (0 <= tz x /\ 0 <= tz y) ->
  exists r s, evaluate Min x y = Ok r /\ evaluate Max x y = Ok s /\ tz r = Z.min (tz x) (tz y) /\ tz s = Z.max (tz x) (tz y).
Proof.
  intros x y X Y H. assert (E : in_ity (rtype x y) (tz x) /\ in_ity (rtype x y) (tz y)).
  { destruct H as [S|[Nx Ny]]; [now apply exact_signed|]. pose proof (rtype_bits x y X Y) as (B & B1 & B2).
    destruct (sgn (rtype x y)) eqn:S; [now apply exact_signed|]. unfold in_ity, ilow, ihigh. rewrite S.
    destruct X as [Cx Ix], Y as [Cy Iy]. unfold in_ity, ihigh, ctype in *.
    assert (L : forall t z, 0 < bits t <= bits (rtype x y) -> z < (if sgn t then 2 ^ (bits t - 1) else 2 ^ bits t) -> z < 2 ^ bits (rtype x y)).
    { intros t z Bt Z0. pose proof (pow_mono (bits t) (bits (rtype x y)) ltac:(lia)). pose proof (pow_mono (bits t - 1) (bits t) ltac:(lia)).
      destruct (sgn t); lia. }
    split; (split; [lia|]); [apply (L (tty x)) | apply (L (tty y))]; lia. }
  destruct E as [Ex Ey]. destruct (min_max_value x y X Y Ex Ey) as [-> ->]. eexists _, _. repeat split.
Qed.
Lemma same_rtype P x y : promote (tty x) = P -> promote (tty y) = P -> rtype x y = P.
Proof. intros A B. unfold rtype. rewrite A, B. apply common_refl. Qed.
Lemma same_in P x : typed x -> promote (tty x) = P -> in_ity P (tz x).
Proof. intros [C I] <-. now apply promote_in. Qed.
Lemma promote_promote a : promote (promote a) = promote a.
Proof. unfold promote. destruct (bits a <? 32) eqn:E; [reflexivity|]. now rewrite E. Qed.
Lemma cond_promote P a b : promote a = P -> promote b = P -> promote (cond_type a b) = P /\ (cond_type a b = a \/ cond_type a b = P).
Proof.
  intros A B. unfold cond_type. destruct ((bits a =? bits b) && Bool.eqb (sgn a) (sgn b)); [auto|].
  rewrite A, B, common_refl. split; auto. rewrite <- A. apply promote_promote.
Qed.
Lemma cond_eq a : cond_type a a = a.
Proof. unfold cond_type. now rewrite Z.eqb_refl, eqb_reflx. Qed.
Lemma cond_ne P a b : promote a = P -> promote b = P -> a <> b -> cond_type a b = P.
Proof.
  intros A B N. unfold cond_type. rewrite A, B, common_refl.
  destruct (Z.eqb_spec (bits a) (bits b)); [|reflexivity]. destruct (Bool.eqb (sgn a) (sgn b)) eqn:S; [|reflexivity].
  apply eqb_prop in S. exfalso. apply N. now apply ity_eq.
Qed.
Lemma ity_dec (a b : ity) : a = b \/ a <> b.
Proof. destruct (Z.eq_dec (bits a) (bits b)), (Bool.bool_dec (sgn a) (sgn b)); try (right; congruence). left. now apply ity_eq. Qed.
Lemma cond_assoc P a b c : promote a = P -> promote b = P -> promote c = P -> cond_type (cond_type a b) c = cond_type a (cond_type b c).
Proof.
  intros A B C. assert (PP : promote P = P) by (rewrite <- A; apply promote_promote).
  assert (L : forall u, promote u = P -> cond_type u P = P).
  { intros u U. destruct (ity_dec u P) as [->|N]; [apply cond_eq|]. now apply cond_ne. }
  destruct (ity_dec a b) as [->|N1]; destruct (ity_dec b c) as [->|N2].
  - now rewrite !cond_eq.
  - rewrite cond_eq, (cond_ne P b c) by auto. symmetry. now apply L.
  - rewrite cond_eq, (cond_ne P a c), cond_comm by auto. now apply L.
  - rewrite (cond_ne P a b), (cond_ne P b c) by auto. rewrite L by auto. rewrite cond_comm. now apply L.
Qed.

(** Where the types are the same after promotion, or for bitwise and of any types, both groupings
    give the same value and type whenever both are defined. *)
Theorem C122_associative : forall o x y z a b l r, typed x -> typed y -> typed z ->
  o = BitAnd \/ (promote (tty x) = promote (tty y) /\ promote (tty y) = promote (tty z)) ->
  evaluate o x y = Ok a -> evaluate o a z = Ok l -> evaluate o y z = Ok b -> evaluate o x b = Ok r -> l = r.
Proof.
  intros o x y z a b l r X Y Z_ H E1 E2 E3 E4.
  assert (TE : forall u v : tval, tty u = tty v -> tz u = tz v -> u = v) by (intros [? ?] [? ?]; cbn; now intros -> ->).
  assert (AND : o = BitAnd -> l = r).
  { intros ->. cbn in E1, E2, E3, E4. rewrite and_exact in E1, E3 by assumption.
    assert (Ta : typed a). { injection E1 as <-. split; cbn; [|now apply land_in]. pose proof (rtype_bits x y X Y). unfold ctype. lia. }
    assert (Tb : typed b). { injection E3 as <-. split; cbn; [|now apply land_in]. pose proof (rtype_bits y z Y Z_). unfold ctype. lia. }
    rewrite and_exact in E2, E4 by assumption. injection E2 as <-. injection E4 as <-. injection E1 as <-. injection E3 as <-.
    apply TE; cbn [tty tz]; [|symmetry; apply Z.land_assoc]. unfold rtype at 1 3. cbn [tty].
    rewrite !promote_rtype by assumption. unfold rtype. apply common_assoc. }
  destruct H as [->|[P1 P2]]; [now apply AND|]. assert (P3 : promote (tty z) = promote (tty x)) by congruence. clear P2. rename P3 into P2. symmetry in P1.
  remember (promote (tty x)) as P eqn:HP. symmetry in HP.
  assert (BP : 32 <= bits P <= 64). { destruct X as [C _]. destruct (promote_ctype _ C) as (A1 & A2 & _). rewrite HP in *. unfold ctype in A1. lia. }
  assert (PP : promote P = P) by now apply promote_id.
  destruct (arith o) as [f|] eqn:AO.
  { pose proof (C122_arithmetic o f x y a AO X Y E1) as (T1 & Ta & V1).
    pose proof (C122_arithmetic o f a z l AO Ta Z_ E2) as (T2 & Tl & V2).
    pose proof (C122_arithmetic o f y z b AO Y Z_ E3) as (T3 & Tb & V3).
    pose proof (C122_arithmetic o f x b r AO X Tb E4) as (T4 & Tr & V4).
    rewrite (same_rtype P) in T1, V1, T3, V3 by congruence.
    rewrite (same_rtype P) in T2, V2 by congruence. rewrite (same_rtype P) in T4, V4 by congruence.
    apply TE; [congruence|]. rewrite V2, V4, V1, V3.
    rewrite <- (arith_congr o f P _ (tz z)) by (auto; lia). rewrite wrap_wrap by lia. rewrite (arith_congr o f) by (auto; lia).
    rewrite <- (arith_congr o f P (tz x) (wrap P _)) by (auto; lia). rewrite wrap_wrap by lia. rewrite (arith_congr o f) by (auto; lia).
    f_equal. destruct o; try discriminate; injection AO as <-; lia. }
  destruct (bitwise o) as [f|] eqn:BO.
  { destruct (C122_bits o f x y BO X Y) as (a' & Ea & T1 & Ta & V1). assert (a' = a) by congruence. subst a'.
    destruct (C122_bits o f a z BO Ta Z_) as (l' & El & T2 & Tl & V2). assert (l' = l) by congruence. subst l'.
    destruct (C122_bits o f y z BO Y Z_) as (b' & Eb & T3 & Tb & V3). assert (b' = b) by congruence. subst b'.
    destruct (C122_bits o f x b BO X Tb) as (r' & Er & T4 & Tr & V4). assert (r' = r) by congruence. subst r'.
    rewrite (same_rtype P) in T1, T3 by congruence. rewrite (same_rtype P) in T2, T4 by congruence.
    rewrite T1 in V1. rewrite T2 in V2. rewrite T3 in V3. rewrite T4 in V4.
    apply TE; [congruence|]. destruct Tl as [_ Il], Tr as [_ Ir]. rewrite T2 in Il. rewrite T4 in Ir.
    rewrite <- (wrap_id P (tz l)), <- (wrap_id P (tz r)) by (auto; lia). apply wrap_bits; [lia|]. intros i I.
    rewrite V2, V4, V1, V3 by lia.
    destruct o; try discriminate; injection BO as <-; destruct (Z.testbit (tz x) i), (Z.testbit (tz y) i), (Z.testbit (tz z) i); reflexivity. }
  assert (MM : forall u v, typed u -> typed v -> promote (tty u) = P -> promote (tty v) = P ->
    exists c, c = cond_type (tty u) (tty v) /\ promote c = P /\
    evaluate Min u v = Ok {| tty := c; tz := Z.min (tz u) (tz v) |} /\ evaluate Max u v = Ok {| tty := c; tz := Z.max (tz u) (tz v) |} /\
    typed {| tty := c; tz := Z.min (tz u) (tz v) |} /\ typed {| tty := c; tz := Z.max (tz u) (tz v) |}).
  { intros u v U V Pu Pv. destruct (min_max_value u v U V) as [M1 M2];
      try (rewrite (same_rtype P) by assumption; now apply same_in).
    eexists. split; [reflexivity|]. destruct (cond_promote P _ _ Pu Pv) as [PC _]. split; [exact PC|]. split; [exact M1|]. split; [exact M2|].
    assert (CC : ctype (cond_type (tty u) (tty v)) /\ in_ity (cond_type (tty u) (tty v)) (tz u) /\ in_ity (cond_type (tty u) (tty v)) (tz v)).
    { destruct (cond_cases u v U V) as [[E ->]| ->].
      - split; [apply U|]. split; [apply U|rewrite E; apply V].
      - rewrite (same_rtype P) by assumption. split; [unfold ctype; lia|]. split; now apply same_in. }
    destruct CC as (CC & Iu & Iv). split; (split; [exact CC|]); cbn; unfold in_ity in *; lia. }
  destruct o; try discriminate.
  - destruct (MM x y X Y HP P1) as (c1 & D1 & Q1 & M1 & _ & T1 & _). rewrite M1 in E1. injection E1 as <-.
    destruct (MM _ z T1 Z_ Q1 P2) as (c2 & D2 & Q2 & M2 & _). rewrite M2 in E2. injection E2 as <-.
    destruct (MM y z Y Z_ P1 P2) as (c3 & D3 & Q3 & M3 & _ & T3 & _). rewrite M3 in E3. injection E3 as <-.
    destruct (MM x _ X T3 HP Q3) as (c4 & D4 & Q4 & M4 & _). rewrite M4 in E4. injection E4 as <-.
    apply TE; cbn [tty tz] in *; [|lia]. rewrite D2, D4, D1, D3. now apply (cond_assoc P).
  - destruct (MM x y X Y HP P1) as (c1 & D1 & Q1 & _ & M1 & _ & T1). rewrite M1 in E1. injection E1 as <-.
    destruct (MM _ z T1 Z_ Q1 P2) as (c2 & D2 & Q2 & _ & M2 & _). rewrite M2 in E2. injection E2 as <-.
    destruct (MM y z Y Z_ P1 P2) as (c3 & D3 & Q3 & _ & M3 & _ & T3). rewrite M3 in E3. injection E3 as <-.
    destruct (MM x _ X T3 HP Q3) as (c4 & D4 & Q4 & _ & M4 & _). rewrite M4 in E4. injection E4 as <-.
    apply TE; cbn [tty tz] in *; [|lia]. rewrite D2, D4, D1, D3. now apply (cond_assoc P).
Qed.
Definition V (t : ity) (z : Z) : tval := {| tty := t; tz := z |}.
Definition grouped (o : bop) (x y z : tval) : outcome Z * outcome Z :=
  ((do a <- evaluate o x y; do l <- evaluate o a z; Ok (tz l)), (do b <- evaluate o y z; do r <- evaluate o x b; Ok (tz r))).
(** Finding: not of mixed types, although declared so: 64-bit, unsigned 32-bit and int operands. *)
Theorem C122_associative_refuted : forall o, o <> BitAnd -> exists x y z a b, typed x /\ typed y /\ typed z /\
  grouped o x y z = (Ok a, Ok b) /\ a <> b.
Proof.
  assert (T : forall t z, ctype t -> in_ity t z -> typed (V t z)) by now split.
  intros o N. exists (V int64 (match o with Add | BitOr | BitXor => 0 | Multiply => 1 | Min => 5 | _ => -5 end)),
    (V uint32 (match o with Multiply => 1 | Min => 7 | _ => 0 end)), (V int32 (-1)).
  destruct o; try contradiction.
  - exists (-1), 4294967295. repeat split; try (vm_compute; discriminate || reflexivity); discriminate.
  - exists (-1), 4294967295. repeat split; try (vm_compute; discriminate || reflexivity); discriminate.
  - exists (-1), 4294967295. repeat split; try (vm_compute; discriminate || reflexivity); discriminate.
  - exists (-1), 4294967295. repeat split; try (vm_compute; discriminate || reflexivity); discriminate.
  - exists (-1), 5. repeat split; try (vm_compute; discriminate || reflexivity); discriminate.
  - exists 0, 4294967295. repeat split; try (vm_compute; discriminate || reflexivity); discriminate.
Qed.
(** Nor of signed types, because one grouping can be undefined. *)
Theorem C122_grouping_refuted : exists x y z, typed x /\ typed y /\ typed z /\ tty x = int32 /\ tty y = int32 /\ tty z = int32 /\
  grouped Add x y z = (UB, Ok 2147483647).
Proof. exists (V int32 2147483647), (V int32 1), (V int32 (-1)). repeat split; vm_compute; discriminate || reflexivity. Qed.
(** Finding: the product of two unsigned 16-bit numbers is computed in int and can be undefined. *)
Theorem C122_ushort_refuted : exists x y, typed x /\ typed y /\ tty x = tty y /\ sgn (tty x) = false /\ evaluate Multiply x y = UB.
Proof. exists (V {| bits := 16; sgn := false |} 65535), (V {| bits := 16; sgn := false |} 65535). repeat split; vm_compute; discriminate || reflexivity. Qed.

(** *** Identity elements *)
Theorem C122_identity : forall o t e x, ctype t -> identity_element o t = Some e -> typed x -> tty x = t ->
  tty e = t /\ exists r, evaluate o e x = Ok r /\ evaluate o x e = Ok r /\ tz r = tz x.
Proof.
  intros o t e x Ct I X Tx.
  assert (LI : forall z, list_init t z = Some e -> typed e /\ tty e = t /\ tz e = z).
  { intros z E. unfold list_init in E. destruct (in_ityb t z) eqn:B; [|discriminate]. injection E as <-. apply in_ityb_spec in B. repeat split; auto; apply B || apply Ct. }
  pose proof (promote_ctype t Ct) as (Pc & P32 & _). unfold ctype in Pc.
  assert (E : typed e /\ tty e = t /\ match o with Add | BitOr | BitXor => tz e = 0 | Multiply => tz e = 1 | BitAnd => tz e = -1
      | Min => tz e = ihigh t - 1 | Max => tz e = ilow t end).
  { assert (0 < bits t) by (unfold ctype in Ct; lia). pose proof (ity_span t ltac:(assumption)) as Sp. assert (0 < 2 ^ bits t) by (apply Z.pow_pos_nonneg; lia).
    destruct o; cbn [identity_element] in I; try (now apply LI).
    - injection I as <-. split; [split; [exact Ct|unfold in_ity; cbn [tz tty]; lia]|now split].
    - injection I as <-. split; [split; [exact Ct|unfold in_ity; cbn [tz tty]; lia]|now split]. }
  destruct E as (Te & Ee & Ve). split; [exact Ee|]. rewrite (C122_commutative o x e) by assumption.
  assert (R : rtype e x = promote t) by (apply same_rtype; congruence).
  assert (Ix : in_ity (promote t) (tz x)) by (apply same_in; [exact X|congruence]).
  assert (Ie : in_ity (promote t) (tz e)) by (apply same_in; [exact Te|congruence]).
  assert (AR : forall f, arith o = Some f -> f (tz e) (tz x) = tz x -> exists r, evaluate o e x = Ok r /\ evaluate o e x = Ok r /\ tz r = tz x).
  { intros f A F. destruct (C122_overflow o f e x A Te X) as [U [D|[r D]]].
    - apply U in D as [_ D]. rewrite R, F in D. contradiction.
    - exists r. split; [exact D|]. split; [exact D|]. destruct (C122_arithmetic o f e x r A Te X D) as (_ & _ & ->).
      rewrite R, F. apply wrap_id; [lia|exact Ix]. }
  assert (BI : forall f, bitwise o = Some f -> (forall i, 0 <= i -> f (Z.testbit (tz e) i) (Z.testbit (tz x) i) = Z.testbit (tz x) i) ->
    exists r, evaluate o e x = Ok r /\ evaluate o e x = Ok r /\ tz r = tz x).
  { intros f A F. destruct (C122_bits o f e x A Te X) as (r & D & T & Tr & B). exists r. split; [exact D|]. split; [exact D|].
    rewrite R in T. rewrite T in B. destruct Tr as [_ Ir]. rewrite T in Ir.
    rewrite <- (wrap_id (promote t) (tz r)), <- (wrap_id (promote t) (tz x)) by (auto; lia). apply wrap_bits; [lia|].
    intros i Hi. rewrite B, F by lia. reflexivity. }
  destruct (min_max_value e x Te X) as [M1 M2]; try (now rewrite R). destruct X as [_ X]. unfold in_ity in X. rewrite Tx in X.
  destruct o.
  - apply (AR Z.add); [reflexivity|lia].
  - apply (AR Z.mul); [reflexivity|lia].
  - apply (BI andb); [reflexivity|]. intros i Hi. rewrite Ve, Z.bits_m1 by lia. reflexivity.
  - apply (BI orb); [reflexivity|]. intros i Hi. rewrite Ve, Z.bits_0. reflexivity.
  - apply (BI xorb); [reflexivity|]. intros i Hi. rewrite Ve, Z.bits_0. now destruct (Z.testbit (tz x) i).
  - eexists. split; [exact M1|]. split; [exact M1|]. cbn. lia.
  - eexists. split; [exact M2|]. split; [exact M2|]. cbn. lia.
Qed.
Theorem C122_identity_exists : forall o t, ctype t -> (identity_element o t = None <-> o = BitAnd /\ sgn t = false).
Proof.
  intros o t C. unfold ctype in C. assert (P7 : 2 ^ 7 <= 2 ^ (bits t - 1)) by (apply pow_mono; lia).
  assert (P8 : 2 ^ 8 <= 2 ^ bits t) by (apply pow_mono; lia). change (2 ^ 7) with 128 in P7. change (2 ^ 8) with 256 in P8.
  assert (L : forall z, (0 <= z <= 1 \/ (z = -1 /\ sgn t = true)) -> list_init t z = Some {| tty := t; tz := z |}).
  { intros z H. unfold list_init. replace (in_ityb t z) with true; [reflexivity|]. symmetry. apply in_ityb_spec.
    unfold in_ity, ilow, ihigh. destruct (sgn t); [lia|]. destruct H as [H|[_ H]]; [lia|discriminate]. }
  destruct o; cbn [identity_element]; try (rewrite L by lia); try (split; [discriminate|intros [D _]; discriminate]).
  destruct (sgn t) eqn:S.
  - rewrite L by auto. split; [discriminate|intros [_ D]; discriminate].
  - split; [auto|]. intros _. unfold list_init, in_ityb, ilow. rewrite S. reflexivity.
Qed.
(** Finding: so there is none for bitwise and of unsigned types: the code does not compile. *)
Theorem C122_identity_refuted : identity_element BitAnd uint32 = None /\
  forall x, typed x -> tty x = uint32 -> evaluate BitAnd (V uint32 4294967295) x = Ok x.
Proof.
  split; [reflexivity|]. intros x X T. cbn [evaluate]. rewrite and_exact; [|split; vm_compute; intuition discriminate|exact X].
  unfold rtype. rewrite T. cbn [V tty tz]. change (common (promote uint32) (promote uint32)) with uint32.
  destruct X as [_ I]. destruct x as [t z]. cbn [tty tz] in *. subst t.
  change 4294967295 with (Z.ones 32). change (0 <= z < 2 ^ 32) in I. rewrite Z.land_comm, Z.land_ones, Z.mod_small by lia. reflexivity.
Qed.

(** allow_promotion does not change the results on integers. *)
Theorem C122_promotion : forall o x y, typed x -> typed y -> promoted o x y = evaluate o x y.
Proof.
  intros o x y X Y. unfold promoted. pose proof (rtype_bits x y X Y) as (B & _). destruct (cond_cases x y X Y) as [[E C]|C]; rewrite C.
  - assert (A : forall u, typed u -> tty u = tty x -> as_ (tty x) u = u).
    { intros u [Cu Iu] Tu. unfold as_. destruct u as [t z]. cbn in *. subst t. f_equal. apply wrap_id; [unfold ctype in Cu; lia|exact Iu]. }
    now rewrite !A by (auto; congruence).
  - set (R := rtype x y) in *. assert (PR : promote R = R) by now apply promote_rtype.
    assert (W : forall u, wrap R (wrap R u) = wrap R u) by (intros; apply wrap_wrap; lia).
    destruct o; cbn [evaluate]; unfold tbin, tbit, tcmp, tconv; cbn [as_ tty tz]; rewrite ?PR, ?common_refl, ?cond_eq;
      fold (rtype x y); fold (rtype y x); rewrite ?(rtype_comm y x); fold R; rewrite ?W, ?C; try reflexivity.
    + destruct (wrap R (tz y) <? wrap R (tz x)); unfold as_; cbn [tz]; now rewrite W.
    + destruct (wrap R (tz x) <? wrap R (tz y)); unfold as_; cbn [tz]; now rewrite W.
Qed.
(** The target of an operation, which may be either argument, keeps its type and gets the true
    value modulo its width. *)
Theorem C122_inout : forall o f x y, arith o = Some f -> typed x -> typed y -> evaluate o x y <> UB ->
  into_first o x y = Ok (V (tty x) (wrap (tty x) (f (tz x) (tz y)))) /\
  into_second o x y = Ok (V (tty y) (wrap (tty y) (f (tz x) (tz y)))).
Proof.
  intros o f x y A X Y N. destruct (C122_overflow o f x y A X Y) as [_ [D|[r D]]]; [contradiction|].
  unfold into_first, into_second. rewrite D. cbn [bind]. destruct (C122_arithmetic o f x y r A X Y D) as (_ & _ & E).
  pose proof (rtype_bits x y X Y) as (B & B1 & B2). unfold as_. rewrite E.
  destruct X as [Cx _], Y as [Cy _]. unfold ctype in *. now rewrite !wrap_wrap_congr by lia.
Qed.
(** A value that is common to all arguments, or a failed check. *)
Theorem C122_common : forall x xs, (common_value x xs = Ok x <-> forall y, In y xs -> y = x) /\
  (common_value x xs = Ok x \/ common_value x xs = AssertFail).
Proof.
  intros x xs. induction xs as [|y xs [IH1 IH2]]; cbn [common_value].
  - split; [|now left]. split; [intros _ y []|reflexivity].
  - destruct (Z.eqb_spec x y) as [->|N].
    + split; [|exact IH2]. rewrite IH1. split; [intros H z [<-|I]; auto|]. intros H z I. apply H. now right.
    + split; [|now right]. split; [discriminate|]. intros H. exfalso. apply N. symmetry. apply H. now left.
Qed.

Example C122_case :
  typed (V uint32 4294967295) /\ typed (V int8 (-3)) /\ typed (V uint8 200) /\
  evaluate Add (V uint32 4294967295) (V int8 (-3)) = Ok (V uint32 4294967292) /\
  evaluate Multiply (V uint8 200) (V int8 (-3)) = Ok (V int32 (-600)) /\
  evaluate BitAnd (V int8 (-3)) (V uint8 200) = Ok (V int32 200) /\
  evaluate BitXor (V int8 (-3)) (V uint8 200) = Ok (V int32 (-203)) /\
  bit_not (V uint8 200) = V int32 (-201) /\
  evaluate Min (V int8 (-3)) (V uint8 200) = Ok (V int32 (-3)) /\ evaluate Max (V int8 (-3)) (V int8 4) = Ok (V int8 4) /\
  evaluate Max (V int32 (-1)) (V uint32 1) = Ok (V uint32 4294967295) /\
  into_first Add (V uint8 200) (V int8 100) = Ok (V uint8 44) /\ into_second Multiply (V uint8 200) (V int8 100) = Ok (V int8 32) /\
  identity_element BitAnd int8 = Some (V int8 (-1)) /\ promoted Add (V uint8 200) (V int8 100) = Ok (V int32 300) /\
  grouped BitOr (V int8 5) (V uint8 9) (V int32 (-8)) = (Ok (-3), Ok (-3)) /\
  common_value 4 [4; 4] = Ok 4 /\ common_value 4 [4; 5] = AssertFail.
Proof. repeat split; vm_compute; discriminate || reflexivity. Qed.
Print Assumptions C122_arithmetic.
Print Assumptions C122_bits.
Print Assumptions C122_not.
Print Assumptions C122_overflow.
Print Assumptions C122_commutative.
Print Assumptions C122_min_max.
Print Assumptions C122_associative.
Print Assumptions C122_associative_refuted.
Print Assumptions C122_grouping_refuted.
Print Assumptions C122_ushort_refuted.
Print Assumptions C122_identity.
Print Assumptions C122_identity_exists.
Print Assumptions C122_identity_refuted.
Print Assumptions C122_promotion.
Print Assumptions C122_inout.
Print Assumptions C122_common.
