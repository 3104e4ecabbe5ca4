(** Proofs about extreme vertices of convex polygons: ExtremeModel.v. *)
From Coq Require Import ZArith List Bool Lia.
From Verif Require Import Outcome GeoModel HullProofs GeoProofs PolyModel PolyProofs WindProofs ConvexProofs AngleProofs ExtremeModel.
Import ListNotations.
Local Open Scope Z_scope.

(** ** Vertices by cyclic position *)
Section Cyclic.
Context (poly : list pt) (C : convex poly).
Let n := Z.of_nat (length poly).
Notation V := (cyc poly).
Lemma n_pos : 3 <= n.
Proof. unfold n. destruct C as [L _]. lia. Qed.
Lemma V_mod i : V (i mod n) = V i.
Proof. unfold cyc. fold n. pose proof n_pos. now rewrite Z.mod_mod by lia. Qed.
Lemma V_eq i j : i mod n = j mod n -> V i = V j.
Proof. intros E. rewrite <- (V_mod i), <- (V_mod j). now rewrite E. Qed.
Lemma V_cycle i : V (i + n) = V i.
Proof. apply V_eq. pose proof n_pos. rewrite <- (Z.mul_1_l n) at 1. now rewrite Z.mod_add by lia. Qed.
Lemma V_in i : In (V i) poly.
Proof. unfold cyc. fold n. apply nth_In. pose proof n_pos. pose proof (Z.mod_pos_bound i n ltac:(lia)). unfold n in *. lia. Qed.
Lemma in_V v : In v poly -> exists i, 0 <= i < n /\ v = V i.
Proof.
  intros I. apply (In_nth _ _ (P 0 0)) in I as (k & K & <-). exists (Z.of_nat k). unfold cyc. fold n.
  split; [unfold n; lia|]. rewrite Z.mod_small by (unfold n; lia). now rewrite Nat2Z.id.
Qed.
Lemma vertex_V k : (k < length poly)%nat -> vertex poly k = V (Z.of_nat k).
Proof. intros K. unfold vertex, cyc. fold n. rewrite Z.mod_small by (unfold n; lia). now rewrite Nat2Z.id. Qed.
Lemma V_inj i j : V i = V j -> (i - j) mod n = 0.
Proof.
  pose proof n_pos as N. intros E. unfold cyc in E. fold n in E.
  assert (ND : NoDup poly).
  { destruct poly as [|x [|y l]]; [cbn in n; lia | cbn in n; lia|]. apply (convex_nodup x y [] l C). }
  pose proof (Z.mod_pos_bound i n ltac:(lia)) as B1. pose proof (Z.mod_pos_bound j n ltac:(lia)) as B2.
  apply (proj1 (NoDup_nth poly (P 0 0)) ND) in E; [|unfold n in *; lia | unfold n in *; lia].
  rewrite Zminus_mod. replace (i mod n) with (j mod n) by lia. now rewrite Z.sub_diag, Z.mod_0_l by lia.
Qed.
Lemma left_weak i j : 0 <= turn (V i) (V (i + 1)) (V j).
Proof. apply (convex_left_weak poly); auto; [apply cyc_edge; destruct C; lia | apply V_in]. Qed.
Lemma left_strict i k : 2 <= k < n -> 0 < turn (V i) (V (i + 1)) (V (i + k)).
Proof.
  intros K. apply (convex_left poly); auto; [apply cyc_edge; destruct C; lia | apply V_in | |]; intros E; apply V_inj in E.
  - replace (i + k - i) with k in E by lia. rewrite Z.mod_small in E; lia.
  - replace (i + k - (i + 1)) with (k - 1) in E by lia. rewrite Z.mod_small in E; lia.
Qed.

(** ** A height on the vertices *)
(** [A / B] for affine [A] and [B], [B] positive on the polygon: its level lines are parallel or
    meet in one point outside. *)
Context (a0 a1 a2 b0 b1 b2 : Z).
Definition fA (p : pt) : Z := a0 + a1 * px p + a2 * py p.
Definition fB (p : pt) : Z := b0 + b1 * px p + b2 * py p.
(** The first one is higher. *)
Definition H (p q : pt) : Z := fA p * fB q - fA q * fB p.
Lemma H_anti p q : H q p = - H p q. Proof. unfold H. ring. Qed.
Lemma H_barycentric u q w a : turn u q a * H w q = turn u q w * H a q - turn q w a * H u q.
Proof. unfold H, fA, fB, turn. ring. Qed.
Lemma H_line a b x y : H b a = 0 -> turn a b x * H y a = turn a b y * H x a.
Proof. intros E. assert (K : turn a b x * H y a - turn a b y * H x a = turn a y x * H b a) by (unfold H, fA, fB, turn; ring). rewrite E in K. lia. Qed.
Hypothesis POS : forall i, 0 < fB (V i).
Lemma H_trans i j k : H (V i) (V j) <= 0 -> H (V j) (V k) <= 0 -> H (V i) (V k) <= 0.
Proof.
  unfold H. pose proof (POS i). pose proof (POS j). pose proof (POS k). revert H0 H1 H2.
  generalize (fA (V i)), (fA (V j)), (fA (V k)), (fB (V i)), (fB (V j)), (fB (V k)). intros x y z bi bj bk. intros.
  assert ((x * bk - z * bi) * bj <= 0) by nia. nia.
Qed.
Lemma H_trans_l i j k : H (V i) (V j) < 0 -> H (V j) (V k) <= 0 -> H (V i) (V k) < 0.
Proof.
  unfold H. pose proof (POS i). pose proof (POS j). pose proof (POS k). revert H0 H1 H2.
  generalize (fA (V i)), (fA (V j)), (fA (V k)), (fB (V i)), (fB (V j)), (fB (V k)). intros x y z bi bj bk. intros.
  assert ((x * bk - z * bi) * bj < 0) by nia. nia.
Qed.
(** The lowest vertex, the first one of two. *)
Definition lowest (m : Z) : Prop := (forall j, H (V m) (V j) <= 0) /\ H (V m) (V (m - 1)) < 0.
Section Lowest.
Context (m : Z) (LOW : lowest m).
Let g k := V (m + k).
Let s k := H (g (k + 1)) (g k).
Lemma g_strict k : 2 <= k < n -> H (V m) (g k) < 0.
Proof.
  intros K. destruct LOW as [L1 L2]. pose proof (L1 (m + k)) as Q. fold (g k) in Q.
  destruct (Z.eq_dec (H (V m) (g k)) 0) as [E|]; [|lia]. exfalso.
  destruct (Z.eq_dec k (n - 1)) as [->|NK].
  { unfold g in E. replace (m + (n - 1)) with (m - 1 + n) in E by lia. rewrite V_cycle in E. lia. }
  rewrite H_anti in E. assert (E' : H (g k) (V m) = 0) by lia.
  pose proof (H_line (V m) (g k) (V (m - 1)) (V (m + 1)) E') as B.
  pose proof (left_strict m k ltac:(lia)) as T1. fold (g k) in T1.
  pose proof (left_strict (m - 1) (k + 1) ltac:(lia)) as T2. replace (m - 1 + 1) with m in T2 by lia.
  replace (m - 1 + (k + 1)) with (m + k) in T2 by lia. fold (g k) in T2.
  assert (S1 : turn (V m) (g k) (V (m + 1)) = - turn (V m) (V (m + 1)) (g k)) by (unfold turn; ring).
  assert (S2 : turn (V m) (g k) (V (m - 1)) = turn (V (m - 1)) (V m) (g k)) by (unfold turn; ring).
  pose proof (L1 (m + 1)) as Q1. rewrite H_anti in L2. rewrite H_anti in Q1. nia.
Qed.
Lemma s_first : 0 <= s 0.
Proof. unfold s, g. rewrite H_anti. destruct LOW as [L _]. specialize (L (m + (0 + 1))). rewrite Z.add_0_r. lia. Qed.
Lemma s_last : s (n - 1) < 0.
Proof.
  unfold s, g. replace (m + (n - 1 + 1)) with (m + n) by lia. replace (m + (n - 1)) with (m - 1 + n) by lia.
  rewrite !V_cycle. apply LOW.
Qed.
Lemma s_step k : 1 <= k <= n - 2 -> s k <= 0 -> s (k + 1) < 0.
Proof.
  intros K S. pose proof n_pos. unfold s in *. pose proof (g_strict (k + 1) ltac:(lia)) as G.
  pose proof (H_barycentric (g k) (g (k + 1)) (g (k + 1 + 1)) (V m)) as B.
  assert (T1 : 0 < turn (g k) (g (k + 1)) (V m)).
  { pose proof (left_strict (m + k) (n - k) ltac:(lia)) as T. replace (m + k + (n - k)) with (m + n) in T by lia.
    rewrite V_cycle in T. unfold g. now rewrite Z.add_assoc. }
  assert (T2 : 0 <= turn (g (k + 1)) (g (k + 1 + 1)) (V m)).
  { unfold g. rewrite (Z.add_assoc m (k + 1) 1). apply left_weak. }
  assert (T3 : 0 < turn (g k) (g (k + 1)) (g (k + 1 + 1))).
  { pose proof (left_strict (m + k) 2 ltac:(lia)) as T. unfold g.
    replace (m + (k + 1 + 1)) with (m + k + 2) by lia. now rewrite Z.add_assoc. }
  rewrite H_anti in S. nia.
Qed.
Lemma s_mono k l : 1 <= k -> k < l <= n - 1 -> s k <= 0 -> s l < 0.
Proof.
  intros K L S. replace l with (k + 1 + Z.of_nat (Z.to_nat (l - k - 1))) by lia.
  assert (B : k + 1 + Z.of_nat (Z.to_nat (l - k - 1)) <= n - 1) by lia. revert B. generalize (Z.to_nat (l - k - 1)) as d.
  induction d as [|d IH]; intros B.
  - rewrite Z.add_0_r. apply s_step; lia.
  - replace (k + 1 + Z.of_nat (Datatypes.S d)) with (k + 1 + Z.of_nat d + 1) by lia. apply s_step; [lia|]. assert (s (k + 1 + Z.of_nat d) < 0) by (apply IH; lia). lia.
Qed.
Lemma g_asc k l : 1 <= k -> k < l <= n - 1 -> 0 < s l -> H (g k) (g l) < 0.
Proof.
  intros K L S.
  assert (Up : forall i, k <= i < l -> 0 < s i).
  { intros i I. destruct (Z.le_gt_cases (s i) 0) as [Q|Q]; [|lia]. apply (s_mono i l) in Q; lia. }
  clear S. replace l with (k + 1 + Z.of_nat (Z.to_nat (l - k - 1))) in * by lia. revert Up L. generalize (Z.to_nat (l - k - 1)) as d.
  induction d as [|d IH]; intros Up L.
  - specialize (Up k ltac:(lia)). unfold s in Up. rewrite H_anti in Up. rewrite Z.add_0_r. lia.
  - replace (k + 1 + Z.of_nat (Datatypes.S d)) with (k + 1 + Z.of_nat d + 1) in * by lia.
    assert (I : H (g k) (g (k + 1 + Z.of_nat d)) < 0) by (apply IH; [intros; apply Up; lia | lia]).
    specialize (Up (k + 1 + Z.of_nat d) ltac:(lia)). unfold s in Up. rewrite H_anti in Up.
    apply (H_trans_l (m + k) (m + (k + 1 + Z.of_nat d)) (m + (k + 1 + Z.of_nat d + 1))); fold g; unfold g in *; lia.
Qed.
Lemma g_desc k l : 1 <= k -> k < l <= n - 1 -> s k < 0 -> H (g l) (g k) < 0.
Proof.
  intros K L S.
  assert (Down : forall i, k <= i < l -> s i < 0).
  { intros i I. destruct (Z.eq_dec i k) as [->|]; [auto|]. apply (s_mono k i); lia. }
  clear S. replace l with (k + 1 + Z.of_nat (Z.to_nat (l - k - 1))) in * by lia. revert Down L. generalize (Z.to_nat (l - k - 1)) as d.
  induction d as [|d IH]; intros Down L.
  - specialize (Down k ltac:(lia)). unfold s in Down. rewrite Z.add_0_r. lia.
  - replace (k + 1 + Z.of_nat (Datatypes.S d)) with (k + 1 + Z.of_nat d + 1) in * by lia.
    assert (I : H (g (k + 1 + Z.of_nat d)) (g k) < 0) by (apply IH; [intros; apply Down; lia | lia]).
    specialize (Down (k + 1 + Z.of_nat d) ltac:(lia)). unfold s in Down.
    apply (H_trans_l (m + (k + 1 + Z.of_nat d + 1)) (m + (k + 1 + Z.of_nat d)) (m + k)); unfold g in *; lia.
Qed.

(** ** The search *)
Context (direction : pt -> pt).
Hypothesis CMP : forall i j, vertex_cmp direction (V i) (V j) = Z.sgn (H (V i) (V j)).
Hypothesis MB : 0 <= m < n.
Lemma is_extreme_spec (i k : nat) : Z.of_nat k < n -> V (Z.of_nat i) = g (Z.of_nat k) -> (Z.of_nat i - (m + Z.of_nat k)) mod n = 0 ->
  is_extreme direction poly i = (Nat.eqb k 0, Z.sgn (s (Z.of_nat k))).
Proof.
  intros K E M. unfold is_extreme. cbv zeta. pose proof n_pos.
  assert (N : forall d, cyc poly (Z.of_nat i + d) = g (Z.of_nat k + d)).
  { intros d. apply V_eq. replace (Z.of_nat i + d) with ((Z.of_nat i - (m + Z.of_nat k)) + (m + (Z.of_nat k + d))) by lia.
    rewrite Z.add_mod, M, Z.add_0_l, Z.mod_mod by lia. reflexivity. }
  rewrite !N. unfold g. rewrite !CMP. fold (g (Z.of_nat k + 1)) (g (Z.of_nat k + 0)) (g (Z.of_nat k + -1)).
  rewrite Z.add_0_r. fold (s (Z.of_nat k)). f_equal. unfold o_left.
  assert (P1 : H (g (Z.of_nat k)) (g (Z.of_nat k + -1)) = if Nat.eqb k 0 then s (n - 1) else s (Z.of_nat k - 1)).
  { unfold s. destruct (Nat.eqb_spec k 0) as [->|NK].
    - unfold g. replace (m + (n - 1 + 1)) with (m + Z.of_nat 0 + n) by lia. replace (m + (n - 1)) with (m + (Z.of_nat 0 + -1) + n) by lia. now rewrite !V_cycle.
    - replace (Z.of_nat k - 1 + 1) with (Z.of_nat k) by lia. now replace (Z.of_nat k + -1) with (Z.of_nat k - 1) by lia. }
  rewrite P1. pose proof s_first as F. pose proof s_last as L. destruct (Nat.eqb_spec k 0) as [->|NK].
  - rewrite (Z.sgn_neg (s (n - 1))) by lia. cbn [Z.of_nat]. rewrite andb_true_iff, negb_true_iff. split; [apply Z.eqb_neq; lia | reflexivity].
  - apply andb_false_iff. destruct (Z.eq_dec (Z.of_nat k) 1) as [Q|Q].
    + right. rewrite Q. apply Z.eqb_neq. change (1 - 1) with 0. lia.
    + destruct (Z.le_gt_cases (s (Z.of_nat k - 1)) 0) as [D|D].
      * left. rewrite (Z.sgn_neg (s (Z.of_nat k))); [reflexivity|]. apply (s_mono (Z.of_nat k - 1)); lia.
      * right. apply Z.eqb_neq. rewrite Z.sgn_pos by lia. lia.
Qed.
(** Steps from the lowest vertex to vertex [i]. *)
Definition off (i : nat) : nat := Z.to_nat ((Z.of_nat i - m) mod n).
Lemma off_bound i : Z.of_nat (off i) < n.
Proof. unfold off. pose proof n_pos. pose proof (Z.mod_pos_bound (Z.of_nat i - m) n ltac:(lia)). lia. Qed.
Lemma off_V i : V (Z.of_nat i) = g (Z.of_nat (off i)) /\ (Z.of_nat i - (m + Z.of_nat (off i))) mod n = 0.
Proof.
  pose proof n_pos as N. unfold off. pose proof (Z.mod_pos_bound (Z.of_nat i - m) n ltac:(lia)) as B. rewrite Z2Nat.id by lia.
  assert (M : (Z.of_nat i - (m + (Z.of_nat i - m) mod n)) mod n = 0).
  { replace (Z.of_nat i - (m + (Z.of_nat i - m) mod n)) with ((Z.of_nat i - m) - (Z.of_nat i - m) mod n) by lia.
    rewrite Zminus_mod, Z.mod_mod, Z.sub_diag by lia. apply Z.mod_0_l. lia. }
  split; [|exact M]. apply V_eq. revert M. generalize (m + (Z.of_nat i - m) mod n) as y. intros y M.
  replace (Z.of_nat i) with ((Z.of_nat i - y) + y) by lia.
  rewrite Z.add_mod, M, Z.add_0_l, Z.mod_mod by lia. reflexivity.
Qed.
Lemma off_below i : Z.of_nat i < m -> Z.of_nat (off i) = Z.of_nat i - m + n.
Proof.
  intros I. unfold off. pose proof n_pos. rewrite <- (Z.mod_add _ 1) by lia. rewrite Z.mod_small by lia. lia.
Qed.
Lemma off_above i : m <= Z.of_nat i -> Z.of_nat i < n -> Z.of_nat (off i) = Z.of_nat i - m.
Proof. intros I J. unfold off. rewrite Z.mod_small by lia. lia. Qed.
Lemma extreme_loop_spec : forall fuel first last, (last - first <= fuel)%nat -> Z.of_nat first < m -> m < Z.of_nat last -> Z.of_nat last <= n ->
  extreme_loop fuel direction poly first (Z.sgn (s (Z.of_nat (off first)))) last = Ok (Z.to_nat m).
Proof.
  induction fuel as [|fuel IH]; intros first last F A B D; [lia|].
  cbn [extreme_loop]. destruct (Nat.eqb_spec (first + 1) last) as [E|E]; [lia|].
  set (middle := (first + (last - first) / 2)%nat).
  assert (MM : (first < middle < last)%nat).
  { unfold middle. pose proof (Nat.div_mod (last - first) 2 ltac:(lia)). pose proof (Nat.mod_upper_bound (last - first) 2 ltac:(lia)). lia. }
  destruct (off_V middle) as [O1 O2]. rewrite (is_extreme_spec middle (off middle) (off_bound middle) O1 O2).
  destruct (Nat.eqb_spec (off middle) 0) as [Z0|NZ].
  { f_equal. destruct (Z.lt_ge_cases (Z.of_nat middle) m) as [Q|Q].
    - pose proof (off_below middle Q). lia.
    - pose proof (off_above middle Q ltac:(lia)). lia. }
  pose proof (off_below first A) as OF. set (kf := Z.of_nat (off first)) in *. set (km := Z.of_nat (off middle)) in *.
  pose proof (off_bound middle) as OB. fold km in OB.
  assert (NE : Z.of_nat middle <> m).
  { intros Q. pose proof (off_above middle ltac:(lia) ltac:(lia)). lia. }
  assert (RULE : (if negb (Z.sgn (s kf) =? Z.sgn (s km)) then Z.sgn (s kf) <? Z.sgn (s km)
                  else Z.sgn (s kf) =? vertex_cmp direction (vertex poly first) (vertex poly middle)) = (km <? kf)).
  { rewrite !vertex_V by (unfold n in *; lia). rewrite CMP. destruct (off_V first) as [P1 _]. rewrite P1, O1. fold kf km.
    assert (KB : 1 <= kf /\ 1 <= km /\ kf < n /\ km <> kf).
    { repeat split; try lia. intros Q. destruct (Z.lt_ge_cases (Z.of_nat middle) m) as [R|R].
      - pose proof (off_below middle R). lia.
      - pose proof (off_above middle R ltac:(lia)). lia. }
    destruct KB as (K1 & K2 & K3 & K4).
    destruct (Z.ltb_spec km kf) as [LT|GE].
    - pose proof (s_mono km kf ltac:(lia) ltac:(lia)) as MN.
      destruct (Z.lt_trichotomy (s km) 0) as [Q|[Q|Q]].
      + assert (R : s kf < 0) by (apply MN; lia). rewrite (Z.sgn_neg _ Q), (Z.sgn_neg _ R). cbn [negb Z.eqb].
        pose proof (g_desc km kf ltac:(lia) ltac:(lia) Q) as G. rewrite (Z.sgn_neg _ G). reflexivity.
      + assert (R : s kf < 0) by (apply MN; lia). rewrite Q, (Z.sgn_neg _ R). reflexivity.
      + rewrite (Z.sgn_pos _ Q). destruct (Z.lt_trichotomy (s kf) 0) as [R|[R|R]].
        * rewrite (Z.sgn_neg _ R). reflexivity.
        * rewrite R. reflexivity.
        * rewrite (Z.sgn_pos _ R). cbn [negb Z.eqb]. pose proof (g_asc km kf ltac:(lia) ltac:(lia) R) as G.
          rewrite H_anti. rewrite (Z.sgn_pos (- _)) by lia. reflexivity.
    - pose proof (s_mono kf km ltac:(lia) ltac:(lia)) as MN.
      destruct (Z.lt_trichotomy (s kf) 0) as [Q|[Q|Q]].
      + assert (R : s km < 0) by (apply MN; lia). rewrite (Z.sgn_neg _ Q), (Z.sgn_neg _ R). cbn [negb Z.eqb].
        pose proof (g_desc kf km ltac:(lia) ltac:(lia) Q) as G. rewrite H_anti. rewrite (Z.sgn_pos (- _)) by lia. reflexivity.
      + assert (R : s km < 0) by (apply MN; lia). rewrite Q, (Z.sgn_neg _ R). reflexivity.
      + rewrite (Z.sgn_pos _ Q). destruct (Z.lt_trichotomy (s km) 0) as [R|[R|R]].
        * rewrite (Z.sgn_neg _ R). reflexivity.
        * rewrite R. reflexivity.
        * rewrite (Z.sgn_pos _ R). cbn [negb Z.eqb]. pose proof (g_asc kf km ltac:(lia) ltac:(lia) R) as G.
          rewrite (Z.sgn_neg _ G). reflexivity. }
  rewrite RULE. destruct (Z.lt_ge_cases (Z.of_nat middle) m) as [R|R].
  - pose proof (off_below middle R) as OM. fold km in OM. destruct (Z.ltb_spec km kf) as [Q|Q]; [lia|].
    apply IH; lia.
  - pose proof (off_above middle R ltac:(lia)) as OM. fold km in OM. destruct (Z.ltb_spec km kf) as [Q|Q]; [|lia].
    apply IH; lia.
Qed.
Theorem extreme_vertex_lowest : extreme_vertex direction poly = Ok (Z.to_nat m).
Proof.
  pose proof n_pos as N. unfold extreme_vertex. destruct (Nat.leb_spec (length poly) 1) as [L|L]; [unfold n in *; lia|].
  destruct (off_V 0) as [O1 O2]. rewrite (is_extreme_spec 0 (off 0) (off_bound 0) O1 O2).
  destruct (Nat.eqb_spec (off 0) 0) as [Q|Q].
  - destruct (Z.eq_dec m 0) as [-> |NM]; [reflexivity|]. pose proof (off_below 0 ltac:(lia)). lia.
  - apply extreme_loop_spec; try (unfold n in *; lia). destruct (Z.eq_dec m 0) as [E|NM]; [|lia].
    pose proof (off_above 0 ltac:(lia) ltac:(lia)). lia.
Qed.
End Lowest.
(** Not all the vertices have one height. *)
Hypothesis VARY : forall i, exists j, H (V j) (V i) <> 0.
Lemma lowest_upto k : exists i, forall j, 0 <= j <= Z.of_nat k -> H (V i) (V j) <= 0.
Proof.
  induction k as [|k [i I]].
  - exists 0. intros j J. assert (j = 0) as -> by lia. unfold H. lia.
  - destruct (Z.le_gt_cases (H (V i) (V (Z.of_nat (Datatypes.S k)))) 0) as [L|L].
    + exists i. intros j J. destruct (Z.eq_dec j (Z.of_nat (Datatypes.S k))) as [->|]; [auto|]. apply I. lia.
    + exists (Z.of_nat (Datatypes.S k)). intros j J. destruct (Z.eq_dec j (Z.of_nat (Datatypes.S k))) as [->|]; [unfold H; lia|].
      apply (H_trans _ i); [rewrite H_anti; lia | apply I; lia].
Qed.
Lemma lowest_exists : exists m, 0 <= m < n /\ lowest m.
Proof.
  pose proof n_pos as N. assert (X : exists m, lowest m).
  { destruct (lowest_upto (length poly)) as [i I].
    assert (I' : forall j, H (V i) (V j) <= 0).
    { intros j. rewrite <- (V_mod j). apply I. pose proof (Z.mod_pos_bound j n ltac:(lia)). unfold n in *. lia. }
    destruct (Z.eq_dec (H (V i) (V (i - 1))) 0) as [E|E].
    2: { exists i. split; auto. specialize (I' (i - 1)). lia. }
    exists (i - 1). split.
    - intros j. apply (H_trans _ i); [rewrite H_anti; lia | apply I'].
    - destruct (Z.lt_ge_cases (H (V (i - 1)) (V (i - 1 - 1))) 0) as [L|L]; [auto|]. exfalso.
      destruct (VARY i) as [j J]. assert (E1 : H (V (i - 1)) (V i) = 0) by (rewrite H_anti; lia).
      assert (E2 : H (V (i - 1 - 1)) (V i) = 0).
      { assert (K : H (V (i - 1 - 1)) (V i) <= 0) by (apply (H_trans _ (i - 1)); [rewrite H_anti; lia | lia]).
        pose proof (I' (i - 1 - 1)) as K2. rewrite H_anti in K2. lia. }
      pose proof (H_line (V i) (V (i - 1)) (V (i - 1 - 1)) (V j) E1) as B. rewrite E2 in B.
      pose proof (left_strict (i - 1 - 1) 2 ltac:(lia)) as T. replace (i - 1 - 1 + 1) with (i - 1) in T by lia. replace (i - 1 - 1 + 2) with i in T by lia.
      assert (S1 : turn (V i) (V (i - 1)) (V (i - 1 - 1)) = - turn (V (i - 1 - 1)) (V (i - 1)) (V i)) by (unfold turn; ring).
      apply J. nia. }
  destruct X as [m [L1 L2]]. exists (m mod n). split; [apply Z.mod_pos_bound; lia|]. split.
  - intros j. rewrite V_mod. apply L1.
  - rewrite V_mod. rewrite (V_eq (m mod n - 1) (m - 1)); [auto|]. rewrite Zminus_mod_idemp_l. reflexivity.
Qed.
Theorem extreme_vertex_spec direction : (forall i j, vertex_cmp direction (V i) (V j) = Z.sgn (H (V i) (V j))) ->
  exists m, extreme_vertex direction poly = Ok m /\ (m < length poly)%nat
    /\ (forall j, H (V (Z.of_nat m)) (V j) <= 0) /\ H (V (Z.of_nat m)) (V (Z.of_nat m - 1)) < 0.
Proof.
  intros CMP. destruct lowest_exists as (m & MB & L). exists (Z.to_nat m). split; [now apply extreme_vertex_lowest|].
  split; [unfold n in *; lia|]. rewrite Z2Nat.id by lia. exact L.
Qed.
End Cyclic.

(** ** One direction for all the vertices *)
Lemma three_around poly : convex poly -> forall i, 0 < turn (cyc poly i) (cyc poly (i + 1)) (cyc poly (i + 2)).
Proof. intros C i. pose proof (n_pos poly C). apply left_strict; auto. lia. Qed.
Lemma extreme_direction d poly : convex poly -> d <> P 0 0 ->
  exists m, extreme_vertex (fun _ => d) poly = Ok m /\ (m < length poly)%nat
    /\ (forall w, In w poly -> area d (vertex poly m) <= area d w)
    /\ area d (vertex poly m) < area d (cyc poly (Z.of_nat m - 1)).
Proof.
  intros C ND.
  destruct (extreme_vertex_spec poly C 0 (- py d) (px d) 1 0 0) with (direction := fun _ : pt => d) as (m & E & MB & L1 & L2).
  - intros i. unfold fB. lia.
  - intros i. pose proof (three_around poly C i) as T.
    destruct (Z.eq_dec (H 0 (- py d) (px d) 1 0 0 (cyc poly (i + 1)) (cyc poly i)) 0) as [E1|E1]; [|eauto].
    destruct (Z.eq_dec (H 0 (- py d) (px d) 1 0 0 (cyc poly (i + 2)) (cyc poly i)) 0) as [E2|E2]; [|eauto]. exfalso.
    revert T E1 E2. unfold H, fA, fB, turn. destruct (cyc poly i) as [x0 y0], (cyc poly (i + 1)) as [x1 y1], (cyc poly (i + 2)) as [x2 y2], d as [u v]. cbn [px py].
    intros T E1 E2.
    assert (K1 : u * (y1 - y0) = v * (x1 - x0)) by lia. assert (K2 : u * (y2 - y0) = v * (x2 - x0)) by lia.
    assert (U : u * ((x1 - x0) * (y2 - y0) - (y1 - y0) * (x2 - x0)) = 0).
    { replace (u * ((x1 - x0) * (y2 - y0) - (y1 - y0) * (x2 - x0))) with ((x1 - x0) * (u * (y2 - y0)) - (u * (y1 - y0)) * (x2 - x0)) by ring. rewrite K1, K2. ring. }
    assert (W : v * ((x1 - x0) * (y2 - y0) - (y1 - y0) * (x2 - x0)) = 0).
    { replace (v * ((x1 - x0) * (y2 - y0) - (y1 - y0) * (x2 - x0))) with ((v * (x1 - x0)) * (y2 - y0) - (y1 - y0) * (v * (x2 - x0))) by ring. rewrite <- K1, <- K2. ring. }
    apply ND. f_equal; nia.
  - intros i j. unfold vertex_cmp, orient, area, H, fA, fB, psub. cbn [px py]. f_equal. ring.
  - exists m. rewrite vertex_V by auto. repeat split; auto.
    + intros w I. apply (in_V poly) in I as (j & _ & ->); auto. specialize (L1 j). revert L1. unfold H, fA, fB, area. lia.
    + revert L2. unfold H, fA, fB, area. lia.
Qed.

(** ** Directions to one point *)
Lemma extreme_around p poly (sg : Z) (direction : pt -> pt) : sg = 1 \/ sg = -1 ->
  (forall x, direction x = P (sg * (px x - px p)) (sg * (py x - py p))) ->
  convex poly -> (exists a b, poly_edge poly a b /\ turn a b p < 0) ->
  exists m, extreme_vertex direction poly = Ok m /\ (m < length poly)%nat
    /\ (forall w, In w poly -> 0 <= sg * turn p (vertex poly m) w)
    /\ 0 < sg * turn p (vertex poly m) (cyc poly (Z.of_nat m - 1)).
Proof.
  intros SG DIR C (a & b & E & O).
  set (u := px b - px a). set (v := py b - py a).
  assert (UV : 0 < u * u + v * v).
  { assert (u <> 0 \/ v <> 0) by (destruct (Z.eq_dec u 0); destruct (Z.eq_dec v 0); auto; unfold turn in O; subst u v; nia).
    pose proof (Z.square_nonneg u). pose proof (Z.square_nonneg v). nia. }
  destruct (extreme_vertex_spec poly C (sg * (u * px p + v * py p)) (- sg * u) (- sg * v) (v * px p - u * py p) (- v) u)
    with (direction := direction) as (m & X & MB & L1 & L2).
  - intros i. pose proof (convex_left_weak poly a b (cyc poly i) C E (V_in poly C i)) as T. revert T O. unfold turn, fB. subst u v. lia.
  - intros i. pose proof (three_around poly C i) as T.
    assert (NP : cyc poly i <> p).
    { intros Q. pose proof (convex_left_weak poly a b (cyc poly i) C E (V_in poly C i)) as K. rewrite Q in K. lia. }
    set (HH := H _ _ _ _ _ _).
    assert (HE : forall x y, HH x y = sg * (u * u + v * v) * turn p y x).
    { intros x y. unfold HH, H, fA, fB, turn. ring. }
    destruct (Z.eq_dec (HH (cyc poly (i + 1)) (cyc poly i)) 0) as [E1|E1]; [|eauto].
    destruct (Z.eq_dec (HH (cyc poly (i + 2)) (cyc poly i)) 0) as [E2|E2]; [|eauto]. exfalso.
    rewrite HE in E1, E2. assert (SG' : sg * (u * u + v * v) <> 0) by (destruct SG as [-> | ->]; lia).
    apply Z.mul_eq_0 in E1 as [E1|E1]; [lia|]. apply Z.mul_eq_0 in E2 as [E2|E2]; [lia|]. clear - T NP E1 E2.
    revert T NP E1 E2. unfold turn. destruct (cyc poly i) as [x0 y0], (cyc poly (i + 1)) as [x1 y1], (cyc poly (i + 2)) as [x2 y2], p as [xp yp]. cbn [px py].
    intros T NP E1 E2.
    assert (K1 : (x0 - xp) * (y1 - y0) = (y0 - yp) * (x1 - x0)) by lia. assert (K2 : (x0 - xp) * (y2 - y0) = (y0 - yp) * (x2 - x0)) by lia.
    assert (U : (x0 - xp) * ((x1 - x0) * (y2 - y0) - (y1 - y0) * (x2 - x0)) = 0).
    { replace ((x0 - xp) * ((x1 - x0) * (y2 - y0) - (y1 - y0) * (x2 - x0))) with ((x1 - x0) * ((x0 - xp) * (y2 - y0)) - ((x0 - xp) * (y1 - y0)) * (x2 - x0)) by ring. rewrite K1, K2. ring. }
    assert (W : (y0 - yp) * ((x1 - x0) * (y2 - y0) - (y1 - y0) * (x2 - x0)) = 0).
    { replace ((y0 - yp) * ((x1 - x0) * (y2 - y0) - (y1 - y0) * (x2 - x0))) with (((y0 - yp) * (x1 - x0)) * (y2 - y0) - (y1 - y0) * ((y0 - yp) * (x2 - x0))) by ring. rewrite <- K1, <- K2. ring. }
    apply NP. apply Z.mul_eq_0 in U as [U|U]; [|lia]. apply Z.mul_eq_0 in W as [W|W]; [|lia]. f_equal; lia.
  - intros i j. unfold vertex_cmp, orient. rewrite DIR. set (HH := H _ _ _ _ _ _ _ _).
    assert (HE : HH = (u * u + v * v) * area (psub (cyc poly j) (cyc poly i)) (P (sg * (px (cyc poly j) - px p)) (sg * (py (cyc poly j) - py p)))).
    { unfold HH, H, fA, fB, area, psub. cbn [px py]. ring. }
    rewrite HE, Z.sgn_mul, (Z.sgn_pos (u * u + v * v)) by auto. lia.
  - exists m. rewrite vertex_V by auto. repeat split; auto.
    + intros w I. apply (in_V poly) in I as (j & _ & ->); auto. specialize (L1 j).
      replace (H _ _ _ _ _ _ _ _) with (- ((u * u + v * v) * (sg * turn p (cyc poly (Z.of_nat m)) (cyc poly j)))) in L1 by (unfold H, fA, fB, turn; ring).
      clear - L1 UV. nia.
    + replace (H _ _ _ _ _ _ _ _) with (- ((u * u + v * v) * (sg * turn p (cyc poly (Z.of_nat m)) (cyc poly (Z.of_nat m - 1))))) in L2 by (unfold H, fA, fB, turn; ring).
      clear - L2 UV. nia.
Qed.
Lemma tangents_spec p poly : convex poly -> (exists a b, poly_edge poly a b /\ turn a b p < 0) ->
  exists l r, polygon_tangents p poly = Ok (l, r) /\ (l < length poly)%nat /\ (r < length poly)%nat
    /\ (forall w, In w poly -> 0 <= turn p (vertex poly l) w) /\ (forall w, In w poly -> turn p (vertex poly r) w <= 0).
Proof.
  intros C O.
  destruct (extreme_around p poly 1 (fun x => psub x p)) as (l & E1 & B1 & L1 & _); auto.
  { intros x. unfold psub. f_equal; ring. }
  destruct (extreme_around p poly (-1) (fun x => psub p x)) as (r & E2 & B2 & L2 & _); auto.
  { intros x. unfold psub. f_equal; ring. }
  exists l, r. unfold polygon_tangents. rewrite E1. cbn [bind]. rewrite E2. repeat split; auto.
  - intros w I. specialize (L1 w I). lia.
  - intros w I. specialize (L2 w I). lia.
Qed.

(** ** Antipodal vertices *)
(** Parallel lines through the two vertices with the other vertices strictly between; [w] is the
    direction of the lines. *)
Definition antipodal (poly : list pt) (w a b : pt) : Prop :=
  (forall v, In v poly -> v <> a -> area w a < area w v) /\ (forall v, In v poly -> v <> b -> area w v < area w b).
Lemma left_turn_iff l r : left_turn l r = true <-> 0 < px l * py r - py l * px r.
Proof. rewrite left_turn_spec. apply Z.ltb_lt. Qed.
Section Calipers.
Context (poly : list pt) (C : convex poly).
Let n := Z.of_nat (length poly).
Notation V := (cyc poly).
Notation e i := (psub (V (i + 1)) (V i)).
Lemma V_neq i k : 1 <= k < n -> V i <> V (i + k).
Proof. intros K E. apply (V_inj poly C) in E. fold n in E. replace (i - (i + k)) with (- k) in E by lia. 
  rewrite <- (Z.mod_add _ 1) in E by lia. rewrite Z.mod_small in E; lia. Qed.
Lemma lowest_edge a : lowest poly 0 (- py (e a)) (px (e a)) 1 0 0 a.
Proof.
  pose proof (n_pos poly C) as N. fold n in N.
  assert (K : forall x, H 0 (- py (e a)) (px (e a)) 1 0 0 (V a) x = - turn (V a) (V (a + 1)) x).
  { intros x. unfold H, fA, fB, turn, psub. cbn [px py]. ring. }
  split; [intros j|]; rewrite K.
  - pose proof (left_weak poly C a j). lia.
  - pose proof (left_strict poly C a (n - 1) ltac:(lia)) as T. replace (a + (n - 1)) with (a - 1 + n) in T by lia.
    unfold n in T. rewrite (V_cycle poly C) in T. lia.
Qed.
Lemma edges_between a b w : 1 <= b - a < n -> antipodal poly w (V a) (V b) -> forall j, a < j < b -> 0 < area (e a) (e j).
Proof.
  intros AB [A1 A2] j J. pose proof (n_pos poly C) as N. fold n in N.
  assert (L : 0 < area (e a) (e (b - 1))).
  { replace (b - 1 + 1) with b by lia.
    assert (W1 : area w (V a) < area w (V b)).
    { apply A1; [now apply V_in|]. intros E. apply (V_neq a (b - a)); [lia|]. replace (a + (b - a)) with b by lia. now symmetry. }
    assert (W2 : area w (V a) < area w (V (a + 1))).
    { apply A1; [now apply V_in|]. intros E. apply (V_neq a 1); [lia|]. now symmetry. }
    assert (W3 : area w (V (b - 1)) < area w (V b)).
    { apply A2; [now apply V_in|]. intros E. apply (V_neq (b - 1) 1); [lia|]. now replace (b - 1 + 1) with b by lia. }
    assert (T1 : 0 < turn (V a) (V (a + 1)) (V b)).
    { pose proof (left_strict poly C a (b - a) ltac:(fold n; lia)) as T. now replace (a + (b - a)) with b in T by lia. }
    assert (T2 : 0 < turn (V (b - 1)) (V b) (V a)).
    { pose proof (left_strict poly C (b - 1) (n - (b - 1 - a)) ltac:(fold n; lia)) as T. replace (b - 1 + 1) with b in T by lia.
      replace (b - 1 + (n - (b - 1 - a))) with (a + n) in T by lia. unfold n in T. now rewrite (V_cycle poly C) in T. }
    assert (ID : (area w (V b) - area w (V a)) * area (e a) (psub (V b) (V (b - 1)))
      = (area w (V (a + 1)) - area w (V a)) * turn (V (b - 1)) (V b) (V a)
        + (area w (V b) - area w (V (b - 1))) * turn (V a) (V (a + 1)) (V b)).
    { unfold area, turn, psub. cbn [px py]. ring. }
    nia. }
  destruct (Z.eq_dec j (b - 1)) as [->|NJ]; [auto|].
  destruct (Z.lt_ge_cases 0 (area (e a) (e j))) as [|Q]; [auto|]. exfalso.
  assert (S : forall k, H 0 (- py (e a)) (px (e a)) 1 0 0 (V (a + (k - a + 1))) (V (a + (k - a))) = area (e a) (e k)).
  { intros k. replace (a + (k - a + 1)) with (k + 1) by lia. replace (a + (k - a)) with k by lia.
    unfold H, fA, fB, area, psub. cbn [px py]. ring. }
  assert (M : area (e a) (e (b - 1)) < 0).
  { rewrite <- S. apply (s_mono poly C _ _ _ _ _ _ a (lowest_edge a) (j - a) (b - 1 - a)); [lia | fold n; lia|].
    rewrite S. exact Q. }
  lia.
Qed.
Lemma antipodal_swap w a b : antipodal poly w a b -> antipodal poly (psub (P 0 0) w) b a.
Proof.
  intros [A1 A2]. split; intros v I NE; [specialize (A2 v I NE) | specialize (A1 v I NE)];
    unfold area, psub in *; cbn [px py] in *; lia.
Qed.
Lemma edges_outside a b w : 0 <= a < b -> b < n -> antipodal poly w (V a) (V b) -> forall i, 0 <= i < a -> area (e i) (e b) < 0.
Proof.
  intros AB BN A i I. apply antipodal_swap in A. rewrite <- (V_cycle poly C a) in A. fold n in A.
  pose proof (edges_between b (a + n) _ ltac:(lia) A (i + n) ltac:(lia)) as E.
  replace (i + n + 1) with (i + 1 + n) in E by lia. unfold n in E. rewrite !(V_cycle poly C) in E. revert E. unfold area. lia.
Qed.
Lemma antipodal_loop_spec : forall fuel i j, (i < j)%nat -> (j <= length poly)%nat -> (2 * length poly <= fuel + i + j)%nat ->
  exists r, antipodal_loop fuel poly i j = Ok r
    /\ (forall x y, In (x, y) r -> (x < y < length poly)%nat)
    /\ (length r <= 2 * length poly - i - j)%nat
    /\ (forall a b w, (a < b < length poly)%nat -> (i <= a)%nat -> (j <= b)%nat -> antipodal poly w (vertex poly a) (vertex poly b) -> In (a, b) r).
Proof.
  pose proof (n_pos poly C) as N. fold n in N.
  induction fuel as [|fuel IH]; intros i j IJ JN F; cbn [antipodal_loop].
  - destruct (Nat.eqb_spec j (length poly)) as [->|NJ]; [|lia]. exists []. repeat split; try contradiction; cbn [length]; try (intros; lia); intros.
  - destruct (Nat.eqb_spec j (length poly)) as [->|NJ]. { exists []. repeat split; try contradiction; cbn [length]; try (intros; lia); intros. }
    cbv zeta. destruct (Nat.leb_spec (length poly) (i + 1)) as [Q|Q]; [lia|].
    assert (EI : psub (vertex poly (i + 1)) (vertex poly i) = e (Z.of_nat i)).
    { rewrite !vertex_V by lia. now rewrite Nat2Z.inj_add. }
    assert (EJ : psub (vertex poly (if Nat.eqb (j + 1) (length poly) then 0 else j + 1)%nat) (vertex poly j) = e (Z.of_nat j)).
    { destruct (Nat.eqb_spec (j + 1) (length poly)) as [E|E].
      - rewrite !vertex_V by lia. replace (Z.of_nat j + 1) with (Z.of_nat 0 + n) by (unfold n; lia). unfold n. now rewrite (V_cycle poly C).
      - rewrite !vertex_V by lia. now rewrite Nat2Z.inj_add. }
    rewrite EI, EJ. destruct (left_turn (e (Z.of_nat i)) (e (Z.of_nat j))) eqn:T.
    + destruct (IH i (j + 1)%nat) as (r & -> & R1 & R2 & R3); [lia | lia | lia|]. cbn [bind]. exists ((i, j) :: r).
      split; [reflexivity|]. split; [|split].
      * intros x y [E|I]; [injection E as <- <-; lia | now apply R1].
      * cbn [length]. lia.
      * intros a b w AB IA JB A. destruct (Nat.eq_dec j b) as [->|NB]; [|right; apply (R3 a b w); auto; lia].
        destruct (Nat.eq_dec i a) as [->|NA]; [now left|]. exfalso. rewrite !vertex_V in A by lia.
        pose proof (edges_outside (Z.of_nat a) (Z.of_nat b) w ltac:(lia) ltac:(unfold n; lia) A (Z.of_nat i) ltac:(lia)) as E.
        apply left_turn_iff in T. revert T E. unfold area. lia.
    + assert (NJ' : (i + 1 < j)%nat).
      { destruct (Nat.eq_dec (i + 1) j) as [E|E]; [|lia]. exfalso. pose proof (three_around poly C (Z.of_nat i)) as K.
        assert (left_turn (e (Z.of_nat i)) (e (Z.of_nat j)) = true); [|congruence]. apply left_turn_iff.
        replace (Z.of_nat j) with (Z.of_nat i + 1) by lia. replace (Z.of_nat i + 1 + 1) with (Z.of_nat i + 2) by lia.
        revert K. unfold turn, psub. cbn [px py]. lia. }
      destruct (IH (i + 1)%nat j) as (r & -> & R1 & R2 & R3); [lia | lia | lia|]. cbn [bind]. exists ((i, j) :: r).
      split; [reflexivity|]. split; [|split].
      * intros x y [E|I]; [injection E as <- <-; lia | now apply R1].
      * cbn [length]. lia.
      * intros a b w AB IA JB A. destruct (Nat.eq_dec i a) as [->|NA]; [|right; apply (R3 a b w); auto; lia].
        destruct (Nat.eq_dec j b) as [->|NB]; [now left|]. exfalso. rewrite !vertex_V in A by lia.
        pose proof (edges_between (Z.of_nat a) (Z.of_nat b) w ltac:(unfold n; lia) A (Z.of_nat j) ltac:(lia)) as E.
        assert (left_turn (e (Z.of_nat a)) (e (Z.of_nat j)) = true); [|congruence]. apply left_turn_iff. revert E. unfold area. lia.
Qed.
Lemma antipodal_spec : exists r, antipodal_vertices poly = Ok r
    /\ (forall x y, In (x, y) r -> (x < y < length poly)%nat)
    /\ (length r < 2 * length poly)%nat
    /\ (forall a b w, (a < b < length poly)%nat -> antipodal poly w (vertex poly a) (vertex poly b) -> In (a, b) r).
Proof.
  destruct (antipodal_loop_spec (2 * length poly) 0 1) as (r & E & R1 & R2 & R3); [lia | destruct C; lia | lia|].
  exists r. unfold antipodal_vertices. rewrite E. split; [destruct poly; [destruct C as [L _]; cbn in L; lia | reflexivity]|].
  split; [auto|]. split; [destruct C; lia|]. intros a b w AB A. apply (R3 a b w); auto; lia.
Qed.
(** The farthest two vertices. *)
Lemma diameter_antipodal a b : In a poly -> In b poly -> (forall v w, In v poly -> In w poly -> dist2 v w <= dist2 a b) ->
  antipodal poly (P (py b - py a) (- (px b - px a))) a b.
Proof.
  intros IA IB M. split; intros v I NE.
  - specialize (M b v IB I). assert (SQ : 0 < dist2 v a).
    { unfold dist2. destruct v as [x y], a as [x' y']. cbn [px py]. assert (x <> x' \/ y <> y') by (destruct (Z.eq_dec x x'); destruct (Z.eq_dec y y'); auto; subst; congruence).
      pose proof (Z.square_nonneg (x - x')). pose proof (Z.square_nonneg (y - y')). nia. }
    revert M SQ. unfold dist2, area. cbn [px py]. lia.
  - specialize (M a v IA I). assert (SQ : 0 < dist2 v b).
    { unfold dist2. destruct v as [x y], b as [x' y']. cbn [px py]. assert (x <> x' \/ y <> y') by (destruct (Z.eq_dec x x'); destruct (Z.eq_dec y y'); auto; subst; congruence).
      pose proof (Z.square_nonneg (x - x')). pose proof (Z.square_nonneg (y - y')). nia. }
    revert M SQ. unfold dist2, area. cbn [px py]. lia.
Qed.
End Calipers.

(** ** The largest distance *)
Lemma fold_max_le (f : nat * nat -> Z) l : forall r0, r0 <= fold_left (fun res ij => Z.max res (f ij)) l r0
  /\ (forall x, In x l -> f x <= fold_left (fun res ij => Z.max res (f ij)) l r0).
Proof.
  induction l as [|y l IH]; intros r0; cbn [fold_left In]; [split; [lia | contradiction]|].
  destruct (IH (Z.max r0 (f y))) as [A B]. split; [lia|]. intros x [<-|I]; [lia | auto].
Qed.
Lemma fold_max_in (f : nat * nat -> Z) l : forall r0, fold_left (fun res ij => Z.max res (f ij)) l r0 = r0
  \/ exists x, In x l /\ fold_left (fun res ij => Z.max res (f ij)) l r0 = f x.
Proof.
  induction l as [|y l IH]; intros r0; cbn [fold_left In]; [now left|].
  destruct (IH (Z.max r0 (f y))) as [->|(x & I & ->)]; [|right; eauto].
  destruct (Z.max_spec r0 (f y)) as [[_ ->]|[_ ->]]; [right; exists y; auto | now left].
Qed.
Lemma max_exists {X} (f : X -> Z) l : l <> [] -> exists x, In x l /\ forall y, In y l -> f y <= f x.
Proof.
  induction l as [|a l IH]; [congruence|]. intros _. destruct l as [|b l].
  - exists a. split; [now left|]. intros y [->|[]]. lia.
  - destruct IH as (x & I & M); [discriminate|]. destruct (Z.le_gt_cases (f a) (f x)).
    + exists x. split; [now right|]. intros y [<-|J]; auto.
    + exists a. split; [now left|]. intros y [<-|J]; [lia|]. specialize (M y J). lia.
Qed.
Lemma diameter_exists poly : poly <> [] -> exists a b, In a poly /\ In b poly /\ forall v w, In v poly -> In w poly -> dist2 v w <= dist2 a b.
Proof.
  intros NE. destruct (max_exists (fun vw => dist2 (fst vw) (snd vw)) (list_prod poly poly)) as ([a b] & I & M).
  { destruct poly; [congruence | discriminate]. }
  apply in_prod_iff in I as [IA IB]. exists a, b. repeat split; auto. intros v w IV IW. apply (M (v, w)). now apply in_prod_iff.
Qed.
Lemma max_distance_spec poly : convex poly -> exists D, max_distance poly = Ok D
  /\ (exists v w, In v poly /\ In w poly /\ D = dist2 v w) /\ (forall v w, In v poly -> In w poly -> dist2 v w <= D).
Proof.
  intros C. destruct (antipodal_spec poly C) as (r & E & R1 & _ & R3). unfold max_distance. rewrite E. cbn [bind].
  set (f := fun ij : nat * nat => dist2 (vertex poly (fst ij)) (vertex poly (snd ij))).
  change (fun res ij => Z.max res (dist2 (vertex poly (fst ij)) (vertex poly (snd ij)))) with (fun res ij => Z.max res (f ij)).
  eexists. split; [reflexivity|]. set (D := fold_left _ r 0).
  assert (NE : poly <> []) by (destruct C as [L _]; destruct poly; [cbn in L; lia | discriminate]).
  assert (VI : forall i, (i < length poly)%nat -> In (vertex poly i) poly) by (intros i I; unfold vertex; now apply nth_In).
  split.
  - destruct (fold_max_in f r 0) as [Q|(x & I & Q)]; fold D in Q; rewrite Q.
    + exists (vertex poly 0), (vertex poly 0). destruct C as [L _]. repeat split; try (apply VI; lia). unfold dist2. ring.
    + destruct x as [i j]. apply R1 in I. exists (vertex poly i), (vertex poly j). repeat split; apply VI; lia.
  - destruct (diameter_exists poly NE) as (a & b & IA & IB & M). intros v w IV IW. specialize (M v w IV IW) as VW.
    apply Z.le_trans with (dist2 a b); [exact VW|].
    assert (N01 : vertex poly 0 <> vertex poly 1).
    { pose proof (n_pos poly C). rewrite !vertex_V by lia. apply (V_neq poly C (Z.of_nat 0) 1). lia. }
    assert (AB : a <> b).
    { intros <-. assert (K : dist2 (vertex poly 0) (vertex poly 1) <= dist2 a a) by (destruct C as [L _]; apply M; apply VI; lia).
      apply N01. revert K. unfold dist2. destruct (vertex poly 0) as [x y], (vertex poly 1) as [x' y']. cbn [px py]. intros K.
      pose proof (Z.square_nonneg (x - x')). pose proof (Z.square_nonneg (y - y')). f_equal; nia. }
    apply (In_nth _ _ (P 0 0)) in IA as IA'. apply (In_nth _ _ (P 0 0)) in IB as IB'. destruct IA' as (i & IL & EA), IB' as (j & JL & EB).
    change (vertex poly i = a) in EA. change (vertex poly j = b) in EB.
    pose proof (diameter_antipodal poly a b IA IB M) as AP.
    destruct (fold_max_le f r 0) as [_ B]. fold D in B.
    destruct (lt_eq_lt_dec i j) as [[LT|EQ]|GT].
    + specialize (B (i, j)). unfold f in B. cbn [fst snd] in B. rewrite EA, EB in B. apply B. eapply R3; [lia|]. rewrite EA, EB. exact AP.
    + subst j. congruence.
    + specialize (B (j, i)). unfold f in B. cbn [fst snd] in B. rewrite EA, EB in B.
      replace (dist2 a b) with (dist2 b a) by (unfold dist2; ring). apply B. eapply R3; [lia|]. rewrite EA, EB.
      apply antipodal_swap; [exact AP].
Qed.
