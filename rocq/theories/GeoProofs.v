(** Proofs about orientation and polygon area: GeoModel.v. *)
From Coq Require Import ZArith List Bool Lia.
From Verif Require Import Outcome GeoModel HullProofs.
Import ListNotations.
Local Open Scope Z_scope.

(** Sum of the cross products along a path. *)
Fixpoint path_sum (l : list pt) : Z :=
  match l with
  | a :: ((b :: _) as l') => (px a * py b - py a * px b) + path_sum l'
  | _ => 0
  end.
(** Along the closed path. *)
Definition loop_sum (l : list pt) : Z := path_sum (l ++ firstn 1 l).

(** ** Sums over positions *)
Fixpoint zsum (f : Z -> Z) (n : nat) : Z :=
  match n with O => 0 | S n => zsum f n + f (Z.of_nat n) end.
Lemma zsum_ext f g n : (forall i, 0 <= i < Z.of_nat n -> f i = g i) -> zsum f n = zsum g n.
Proof.
  induction n as [|n IH]; intros H; [reflexivity|]. cbn [zsum]. rewrite IH, H by (intros; try apply H; lia). reflexivity.
Qed.
Lemma zsum_sub f g n : zsum (fun i => f i - g i) n = zsum f n - zsum g n.
Proof. induction n as [|n IH]; [reflexivity|]. cbn [zsum]. rewrite IH. ring. Qed.
Lemma zsum_pred f n : zsum (fun i => f (i - 1)) n = zsum f n + f (-1) - f (Z.of_nat n - 1).
Proof.
  induction n as [|n IH]; [change (Z.of_nat 0 - 1) with (-1); cbn; ring|]. cbn [zsum]. rewrite IH.
  replace (Z.of_nat (S n) - 1) with (Z.of_nat n) by lia. ring.
Qed.
Lemma zsum_first f n : zsum f (S n) = f 0 + zsum (fun i => f (i + 1)) n.
Proof.
  induction n as [|n IH]; [cbn; ring|]. change (zsum f (S (S n))) with (zsum f (S n) + f (Z.of_nat (S n))).
  rewrite IH. cbn [zsum]. replace (Z.of_nat (S n)) with (Z.of_nat n + 1) by lia. ring.
Qed.

Lemma area_loop_sum poly n : forall i res,
  area_loop poly n i res
  = res + zsum (fun j => px (cyc poly (i + j)) * (py (cyc poly (i + j + 1)) - py (cyc poly (i + j - 1)))) n.
Proof.
  induction n as [|n IH]; intros i res; [cbn; ring|].
  cbn [area_loop]. rewrite IH, zsum_first, Z.add_0_r.
  rewrite <- Z.add_assoc. f_equal. f_equal. apply zsum_ext. intros j _.
  replace (i + 1 + j) with (i + (j + 1)) by ring. reflexivity.
Qed.

Lemma cyc_period poly i : cyc poly (i + Z.of_nat (length poly)) = cyc poly i.
Proof.
  unfold cyc. destruct poly as [|p l].
  - cbn [length]. rewrite Z.add_0_r. reflexivity.
  - rewrite <- (Z.mul_1_l (Z.of_nat (length (p :: l)))) at 1. rewrite Z_mod_plus_full. reflexivity.
Qed.

Lemma path_sum_nth l : path_sum l =
  zsum (fun i => px (nth (Z.to_nat i) l (P 0 0)) * py (nth (Z.to_nat (i + 1)) l (P 0 0))
                 - py (nth (Z.to_nat i) l (P 0 0)) * px (nth (Z.to_nat (i + 1)) l (P 0 0))) (length l - 1).
Proof.
  induction l as [|a l IH]; [reflexivity|]. destruct l as [|b l]; [reflexivity|].
  change (path_sum (a :: b :: l)) with ((px a * py b - py a * px b) + path_sum (b :: l)).
  rewrite IH. cbn [length]. replace (S (S (length l)) - 1)%nat with (S (S (length l) - 1)) by lia.
  rewrite zsum_first. f_equal. apply zsum_ext. intros i [Hi _].
  replace (Z.to_nat (i + 1 + 1)) with (S (Z.to_nat (i + 1))) by lia.
  replace (Z.to_nat (i + 1)) with (S (Z.to_nat i)) by lia. reflexivity.
Qed.

Lemma polygon_area_loop_sum poly : polygon_area poly = loop_sum poly.
Proof.
  unfold polygon_area, loop_sum. rewrite area_loop_sum, path_sum_nth, Z.add_0_l.
  destruct poly as [|p l]; [reflexivity|]. set (poly := p :: l).
  assert (Ln : (length (poly ++ firstn 1 poly) - 1 = length poly)%nat).
  { rewrite app_length. cbn. lia. }
  rewrite Ln.
  set (f := fun i => py (cyc poly i) * px (cyc poly (i + 1))).
  transitivity (zsum (fun i => px (cyc poly i) * py (cyc poly (i + 1)) - f (i - 1)) (length poly)).
  { apply zsum_ext. intros i _. unfold f. rewrite !Z.add_0_l. replace (i - 1 + 1) with i by ring. ring. }
  rewrite zsum_sub, zsum_pred.
  assert (Pf : f (-1) = f (Z.of_nat (length poly) - 1)).
  { unfold f. rewrite <- (cyc_period poly (-1)), <- (cyc_period poly (-1 + 1)).
    replace (-1 + Z.of_nat (length poly)) with (Z.of_nat (length poly) - 1) by ring.
    replace (-1 + 1 + Z.of_nat (length poly)) with (Z.of_nat (length poly) - 1 + 1) by ring. reflexivity. }
  rewrite Pf. replace (zsum f (length poly) + f (Z.of_nat (length poly) - 1) - f (Z.of_nat (length poly) - 1))
    with (zsum f (length poly)) by ring.
  rewrite <- zsum_sub. apply zsum_ext. intros i Hi. unfold f.
  assert (N0 : forall j, 0 <= j <= Z.of_nat (length poly) ->
    cyc poly j = nth (Z.to_nat j) (poly ++ firstn 1 poly) (P 0 0)).
  { intros j Hj. unfold cyc. destruct (Z.eq_dec j (Z.of_nat (length poly))) as [->|N].
    - rewrite Z_mod_same_full, app_nth2 by (rewrite Nat2Z.id; lia).
      rewrite Nat2Z.id, Nat.sub_diag. reflexivity.
    - rewrite Z.mod_small by lia. rewrite app_nth1 by lia. reflexivity. }
  rewrite !N0 by lia. ring.
Qed.

(** ** Laws of the closed sum *)
Lemma path_sum_app x l2 : forall l1, path_sum (l1 ++ x :: l2) = path_sum (l1 ++ [x]) + path_sum (x :: l2).
Proof.
  induction l1 as [|a l1 IH]; [reflexivity|].
  destruct l1 as [|b l1]; cbn [app].
  - change (path_sum [a; x]) with ((px a * py x - py a * px x) + 0).
    change (path_sum (a :: x :: l2)) with ((px a * py x - py a * px x) + path_sum (x :: l2)). ring.
  - cbn [app] in IH.
    change (path_sum (a :: b :: l1 ++ x :: l2)) with ((px a * py b - py a * px b) + path_sum (b :: l1 ++ x :: l2)).
    change (path_sum (a :: b :: l1 ++ [x])) with ((px a * py b - py a * px b) + path_sum (b :: l1 ++ [x])).
    rewrite IH. ring.
Qed.

Lemma loop_sum_rotate l1 l2 : loop_sum (l1 ++ l2) = loop_sum (l2 ++ l1).
Proof.
  destruct l1 as [|a l1]; [now rewrite app_nil_r|]. destruct l2 as [|b l2]; [now rewrite app_nil_r|].
  unfold loop_sum. cbn [app firstn]. rewrite <- !app_assoc. cbn [app].
  change (a :: l1 ++ b :: l2 ++ [a]) with ((a :: l1) ++ b :: (l2 ++ [a])).
  change (b :: l2 ++ a :: l1 ++ [b]) with ((b :: l2) ++ a :: (l1 ++ [b])).
  rewrite (path_sum_app b (l2 ++ [a]) (a :: l1)), (path_sum_app a (l1 ++ [b]) (b :: l2)). cbn [app]. ring.
Qed.

Lemma path_sum_rev l : path_sum (rev l) = - path_sum l.
Proof.
  induction l as [|a l IH]; [reflexivity|]. destruct l as [|b l]; [reflexivity|].
  change (path_sum (a :: b :: l)) with ((px a * py b - py a * px b) + path_sum (b :: l)).
  cbn [rev] in *. rewrite <- app_assoc. cbn [app]. rewrite path_sum_app, IH.
  change (path_sum [b; a]) with ((px b * py a - py b * px a) + 0). ring.
Qed.

Lemma loop_sum_rev l : loop_sum (rev l) = - loop_sum l.
Proof.
  destruct l as [|a l]; [reflexivity|].
  replace (rev (a :: l)) with (rev l ++ [a]) by reflexivity. rewrite loop_sum_rotate.
  unfold loop_sum. cbn [app firstn].
  replace (a :: rev l ++ [a]) with (rev (a :: l ++ [a])); [apply path_sum_rev|].
  cbn [rev]. rewrite rev_app_distr. reflexivity.
Qed.

Lemma loop_sum_cut a b l1 l2 :
  loop_sum (a :: l1 ++ b :: l2) = loop_sum (a :: l1 ++ [b]) + loop_sum (b :: l2 ++ [a]).
Proof.
  unfold loop_sum. cbn [app firstn]. rewrite <- !app_assoc. cbn [app].
  change (a :: l1 ++ b :: l2 ++ [a]) with ((a :: l1) ++ b :: (l2 ++ [a])).
  change (a :: l1 ++ [b; a]) with ((a :: l1) ++ b :: [a]).
  change (b :: l2 ++ [a; b]) with ((b :: l2) ++ a :: [b]).
  rewrite (path_sum_app b (l2 ++ [a]) (a :: l1)), (path_sum_app b [a] (a :: l1)), (path_sum_app a [b] (b :: l2)).
  cbn [app].
  change (path_sum [b; a]) with ((px b * py a - py b * px a) + 0).
  change (path_sum [a; b]) with ((px a * py b - py a * px b) + 0). ring.
Qed.

(** Along a path seen from a point [o]. *)
Fixpoint fan_sum (o : pt) (l : list pt) : Z :=
  match l with
  | a :: ((b :: _) as l') => turn o a b + fan_sum o l'
  | _ => 0
  end.
Lemma fan_path o : forall l a, fan_sum o (a :: l)
  = path_sum (a :: l) - (px o * (py (last l a) - py a) - py o * (px (last l a) - px a)).
Proof.
  induction l as [|b l IH]; intros a; [cbn; ring|].
  change (fan_sum o (a :: b :: l)) with (turn o a b + fan_sum o (b :: l)).
  change (path_sum (a :: b :: l)) with ((px a * py b - py a * px b) + path_sum (b :: l)).
  rewrite IH. assert (E : last (b :: l) a = last l b).
  { clear. revert a b. induction l as [|c l IH]; intros a b; [reflexivity|].
    change (last (b :: c :: l) a) with (last (c :: l) a). now rewrite (IH a c), <- (IH b c). }
  rewrite E. unfold turn. ring.
Qed.
Lemma fan_loop o l : fan_sum o (l ++ firstn 1 l) = loop_sum l.
Proof.
  destruct l as [|a l]; [reflexivity|]. unfold loop_sum. cbn [app firstn]. rewrite fan_path.
  rewrite last_last. ring.
Qed.

Lemma turn_shift v o a b : turn (padd o v) (padd a v) (padd b v) = turn o a b.
Proof. unfold turn, padd. cbn. ring. Qed.
Lemma fan_shift v o l : fan_sum (padd o v) (map (fun p => padd p v) l) = fan_sum o l.
Proof.
  induction l as [|a l IH]; [reflexivity|]. destruct l as [|b l]; [reflexivity|].
  cbn [map fan_sum] in *. rewrite IH, turn_shift. reflexivity.
Qed.
Lemma loop_sum_shift v l : loop_sum (map (fun p => padd p v) l) = loop_sum l.
Proof.
  rewrite <- (fan_loop (P 0 0) l), <- (fan_loop (padd (P 0 0) v)), firstn_map, <- map_app. apply fan_shift.
Qed.
Lemma loop_sum_scale k l : loop_sum (map (fun p => P (k * px p) (k * py p)) l) = k * k * loop_sum l.
Proof.
  unfold loop_sum. rewrite firstn_map, <- map_app. generalize (l ++ firstn 1 l). clear l.
  induction l as [|a l IH]; [cbn; ring|]. destruct l as [|b l]; [cbn; ring|].
  cbn [map path_sum px py] in *. rewrite IH. ring.
Qed.

(** A fan without right turns and with one left turn has a positive sum. *)
Lemma fan_nonneg o l : (forall i, (i + 1 < length l)%nat -> 0 <= turn o (nth i l (P 0 0)) (nth (i + 1) l (P 0 0))) ->
  0 <= fan_sum o l.
Proof.
  induction l as [|a l IH]; intros H; [cbn; lia|]. destruct l as [|b l]; [cbn; lia|].
  change (fan_sum o (a :: b :: l)) with (turn o a b + fan_sum o (b :: l)).
  assert (0 <= turn o a b) by (apply (H O); cbn; lia).
  assert (0 <= fan_sum o (b :: l)) by (apply IH; intros i Hi; apply (H (S i)); cbn in *; lia). lia.
Qed.
Lemma fan_pos o l : forall k,
  (forall i, (i + 1 < length l)%nat -> 0 <= turn o (nth i l (P 0 0)) (nth (i + 1) l (P 0 0))) ->
  (k + 1 < length l)%nat -> 0 < turn o (nth k l (P 0 0)) (nth (k + 1) l (P 0 0)) -> 0 < fan_sum o l.
Proof.
  induction l as [|a l IH]; intros k H L K; [cbn in L; lia|]. destruct l as [|b l]; [cbn in L; lia|].
  change (fan_sum o (a :: b :: l)) with (turn o a b + fan_sum o (b :: l)).
  assert (0 <= turn o a b) by (apply (H O); cbn; lia).
  destruct k as [|k].
  - assert (0 <= fan_sum o (b :: l)) by (apply fan_nonneg; intros i Hi; apply (H (S i)); cbn in *; lia).
    cbn in K. lia.
  - assert (0 < fan_sum o (b :: l)); [|lia].
    apply (IH k); auto; [intros i Hi; apply (H (S i)); cbn in *; lia | cbn in *; lia].
Qed.

Lemma turn_cyc o a b : turn o a b = turn a b o.
Proof. unfold turn. ring. Qed.

(** A convex polygon has positive area. *)
Lemma convex_area_pos h : (3 <= length h)%nat ->
  (forall i q, (i < length h)%nat -> In q h ->
     0 <= turn (nth i h (P 0 0)) (nth ((i + 1) mod length h) h (P 0 0)) q) ->
  0 < turn (nth 0 h (P 0 0)) (nth 1 h (P 0 0)) (nth 2 h (P 0 0)) ->
  0 < polygon_area h.
Proof.
  intros L C T. rewrite polygon_area_loop_sum, <- (fan_loop (hd (P 0 0) h)).
  destruct h as [|a l]; [cbn in L; lia|]. set (h := a :: l) in *.
  assert (Nx : forall i, (i <= length h)%nat -> nth i (h ++ firstn 1 h) (P 0 0) = nth (i mod length h) h (P 0 0)).
  { intros i Hi. destruct (Nat.eq_dec i (length h)) as [->|N].
    - rewrite Nat.mod_same by lia. rewrite app_nth2, Nat.sub_diag by lia. reflexivity.
    - rewrite Nat.mod_small, app_nth1 by lia. reflexivity. }
  assert (LL : length (h ++ firstn 1 h) = S (length h)) by (rewrite app_length; cbn; lia).
  apply (fan_pos _ _ 1%nat).
  - intros i Hi. rewrite LL in Hi. rewrite !Nx by lia.
    assert (K := C i a ltac:(lia) (or_introl eq_refl)). rewrite (Nat.mod_small i) by lia.
    change (hd (P 0 0) h) with a. rewrite turn_cyc. exact K.
  - lia.
  - rewrite !Nx by lia. rewrite !Nat.mod_small by lia. exact T.
Qed.
