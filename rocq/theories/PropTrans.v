(** C108: the intersection of a line and a simple polygon. *)
From Coq Require Import ZArith QArith List Bool Lia.
From Verif Require Import Outcome GeoModel HullProofs GeoProofs PolyModel PolyProofs WindProofs ExtremeModel ChordModel ChordProofs TransModel TransProofs.
Import ListNotations.
Local Open Scope Z_scope.

(** An arrow head with the inner corner (2, 2), and a comb with an edge on the line [y = 2]. *)
Definition arrow : list pt := [P 0 0; P 2 2; P 0 4; P 6 2].
Definition comb : list pt := [P 0 0; P 8 0; P 8 2; P 6 2; P 6 4; P 4 4; P 4 2; P 2 2; P 2 1; P 0 1].
Lemma small_no_spike poly : forallb (fun i => negb (turn (cyc poly (i - 1)) (cyc poly i) (cyc poly (i + 1)) =? 0)) (map Z.of_nat (seq 0 (length poly))) = true ->
  (0 < length poly)%nat -> no_spike poly.
Proof.
  intros F L i T. exfalso. set (n := Z.of_nat (length poly)). assert (N : 0 < n) by (unfold n; lia).
  pose proof (Z.mod_pos_bound i n N) as B. rewrite forallb_forall in F.
  assert (C : forall d, cyc poly (i + d) = cyc poly (i mod n + d)).
  { intros d. unfold cyc. fold n. now rewrite Z.add_mod_idemp_l by lia. }
  specialize (F (i mod n)). assert (I : In (i mod n) (map Z.of_nat (seq 0 (length poly)))).
  { apply in_map_iff. exists (Z.to_nat (i mod n)). split; [lia|]. apply in_seq. unfold n in *. lia. }
  specialize (F I). apply negb_true_iff, Z.eqb_neq in F. apply F. rewrite <- T. pose proof (C 0) as C0. rewrite !Z.add_0_r in C0.
  change (i - 1) with (i + -1). change (i mod n - 1) with (i mod n + -1). now rewrite C0, (C 1), (C (-1)).
Qed.

(** ** C108 *)
(** [at_param l t x y]: the point [(x, y)] is [begin + t * vector].  [on_edge a b x y]: it is on the
    segment.  [on_line]: the parameter is between the ends of the line (C96_kinds). *)
Theorem C108_sound : forall kb ke l poly, lvec l <> P 0 0 -> poly <> [] -> valid_kind kb ke ->
  exists ts, intersect_simple kb ke l poly = Ok ts /\
  forall t, In t ts -> on_line kb ke t = true /\ exists a b x y, poly_edge poly a b /\ on_edge a b x y /\ at_param l t x y.
Proof. exact crossings_sound. Qed.
(** An edge between the two sides of the line, and a vertex on the line whose neighbours are on
    different sides, are reported. *)
Theorem C108_complete : forall kb ke l poly ts, lvec l <> P 0 0 -> valid_kind kb ke -> intersect_simple kb ke l poly = Ok ts ->
  let side := fun p => px (lvec l) * (py p - py (lbegin l)) - py (lvec l) * (px p - px (lbegin l)) in
  (forall a b t x y, poly_edge poly a b -> side a * side b < 0 -> on_edge a b x y -> at_param l t x y -> on_line kb ke t = true ->
     exists t', In t' ts /\ (t' == t)%Q)
  /\ (forall i t, side (cyc poly (i - 1)) * side (cyc poly (i + 1)) < 0 -> at_param l t (inject_Z (px (cyc poly i))) (inject_Z (py (cyc poly i))) ->
     on_line kb ke t = true -> exists t', In t' ts /\ (t' == t)%Q).
Proof. exact crossings_complete. Qed.
(** The number of reported points after a point [q] of the line that is not on the border has the
    parity of the winding number of [q]; so for a simple polygon it is odd inside. *)
Theorem C108_parity : forall l poly q tq w, lvec l <> P 0 0 -> no_spike poly ->
  at_param l tq (inject_Z (px q)) (inject_Z (py q)) -> winding_number q poly = Wind w ->
  exists ts, intersect_simple Free Free l poly = Ok ts
    /\ Z.odd (Z.of_nat (length (filter (fun t => negb (Qle_bool t tq)) ts))) = Z.odd w.
Proof. exact crossings_parity. Qed.
Theorem C108_even : forall l poly, lvec l <> P 0 0 -> no_spike poly ->
  exists ts, intersect_simple Free Free l poly = Ok ts /\ Z.even (Z.of_nat (length ts)) = true.
Proof. exact crossings_even. Qed.
(** Whether an edge that touches the line is reported depends on the order of the vertices. *)
Theorem C108_order_refuted : exists l poly, no_spike poly /\ no_spike (rev poly) /\ lvec l <> P 0 0
  /\ (exists t1 t2, intersect_simple Free Free l poly = Ok [t1; t2] /\ ~ (t1 == t2)%Q)
  /\ intersect_simple Free Free l (rev poly) = Ok [].
Proof.
  exists (make_line (P 0 0) (P 1 0)), [P 0 0; P 4 0; P 4 4; P 0 4]. split; [apply small_no_spike; [reflexivity | cbn; lia]|].
  split; [apply small_no_spike; [reflexivity | cbn; lia]|]. split; [discriminate|]. split; [|reflexivity].
  do 2 eexists. split; [reflexivity|]. discriminate.
Qed.
(** A corner that touches the line is never reported. *)
Theorem C108_touch_refuted : exists l poly i, no_spike poly /\ lvec l <> P 0 0
  /\ at_param l 0 (inject_Z (px (cyc poly i))) (inject_Z (py (cyc poly i))) /\ intersect_simple Free Free l poly = Ok [].
Proof.
  exists (make_line (P 6 2) (P 6 3)), arrow, 3. split; [apply small_no_spike; [reflexivity | cbn; lia]|].
  split; [discriminate|]. split; [split; reflexivity | reflexivity].
Qed.
Example C108_case : no_spike arrow /\ no_spike comb
  /\ intersect_simple Free Free (make_line (P 1 0) (P 1 1)) arrow = Ok [2 # 2; 6 # 2; 22 # 6; 2 # 6]%Q
  /\ intersect_simple Closed Closed (make_line (P 1 0) (P 1 1)) arrow = Ok [2 # 2; 2 # 6]%Q
  /\ winding_number (P 1 2) arrow = Wind 0
  /\ intersect_simple Free Free (make_line (P 3 2) (P 4 2)) arrow = Ok [- 1 # 1; 3 # 1]%Q
  /\ winding_number (P 3 2) arrow = Wind (-1)
  /\ intersect_simple Free Free (make_line (P 0 2) (P 1 2)) comb = Ok [8 # 1; 2 # 1]%Q
  /\ winding_number (P 5 2) comb = Wind 1
  /\ intersect_simple Free Free (make_line (P 1 2) (P 0 2)) comb = Ok [- (7) # 1; - 1 # 1]%Q
  /\ intersect_simple Free Free (make_line (P 1 2) (P 1 2)) comb = AssertFail.
Proof.
  split; [apply small_no_spike; [reflexivity | cbn; lia]|]. split; [apply small_no_spike; [reflexivity | cbn; lia]|].
  repeat split.
Qed.

Print Assumptions C108_sound.
Print Assumptions C108_complete.
Print Assumptions C108_parity.
Print Assumptions C108_even.
Print Assumptions C108_order_refuted.
Print Assumptions C108_touch_refuted.
