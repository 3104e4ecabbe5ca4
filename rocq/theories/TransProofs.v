(** Proofs about the intersection of a line and a simple polygon: TransModel.v. *)
From Coq Require Import ZArith QArith List Bool Lia Lqa.
From Verif Require Import Outcome GeoModel HullProofs GeoProofs PolyModel PolyProofs WindProofs AngleProofs ExtremeModel ChordModel ChordProofs TransModel.
Import ListNotations.
Local Open Scope Z_scope.

(** ** The direction of the ray does not matter for the winding number *)
(** Crossings of the ray with direction [v] from [q]: the edge goes to the left or to the right. *)
Definition dir (A B C : Z) : Z :=
  if (A <? 0) && negb (B <? 0) && (0 <? C) then 1
  else if negb (A <? 0) && (B <? 0) && (C <? 0) then -1 else 0.
Definition ray_contrib (q v a b : pt) : Z := dir (area v (psub a q)) (area v (psub b q)) (turn a b q).
(** Vectors between the direction [v] (included) and the positive horizontal direction. *)
Definition cone (v u : pt) : bool :=
  let A := area v u in
  if py v <? 0 then (0 <=? A) && (py u <? 0)
  else if 0 <? py v then negb ((0 <=? py u) && (A <? 0))
  else if 0 <? px v then false
  else (py u <? 0) || ((py u =? 0) && (px u <? 0)).

Lemma dir_cone A B C ay by_ vy :
  A * by_ + C * vy = B * ay -> vy <> 0 ->
  (C = 0 -> exists m n, 0 < m /\ 0 < n /\ m * A = n * B /\ m * ay = n * by_) ->
  let F := fun A y => if vy <? 0 then (0 <=? A) && (y <? 0) else negb ((0 <=? y) && (A <? 0)) in
  dir A B C - dir ay by_ C = (if F B by_ then 1 else 0) - (if F A ay then 1 else 0).
Proof.
  intros E NV Z0 F. unfold F, dir. destruct (Z.eq_dec C 0) as [->|NC].
  - destruct (Z0 eq_refl) as (m & n & M & N & E1 & E2).
    assert (SA : A <? 0 = (B <? 0)) by (destruct (Z.ltb_spec A 0), (Z.ltb_spec B 0); auto; nia).
    assert (SA' : 0 <=? A = (0 <=? B)) by (destruct (Z.leb_spec 0 A), (Z.leb_spec 0 B); auto; nia).
    assert (SY : ay <? 0 = (by_ <? 0)) by (destruct (Z.ltb_spec ay 0), (Z.ltb_spec by_ 0); auto; nia).
    assert (SY' : 0 <=? ay = (0 <=? by_)) by (destruct (Z.leb_spec 0 ay), (Z.leb_spec 0 by_); auto; nia).
    rewrite SA, SA', SY, SY'. change (0 <? 0) with false. rewrite !andb_false_r. lia.
  - clear Z0. destruct (Z.ltb_spec A 0), (Z.ltb_spec B 0), (Z.leb_spec 0 A), (Z.leb_spec 0 B), (Z.ltb_spec ay 0), (Z.ltb_spec by_ 0),
      (Z.leb_spec 0 ay), (Z.leb_spec 0 by_), (Z.ltb_spec C 0), (Z.ltb_spec 0 C), (Z.ltb_spec vy 0); cbn [negb andb]; try lia; exfalso; nia.
Qed.
Lemma same_direction q a b : turn a b q = 0 -> ~ on_seg q a b ->
  exists m n, 0 < m /\ 0 < n /\ m * (px a - px q) = n * (px b - px q) /\ m * (py a - py q) = n * (py b - py q).
Proof.
  intros T NS. set (ax := px a - px q). set (ay := py a - py q). set (bx := px b - px q). set (b_ := py b - py q).
  assert (C : ax * b_ = ay * bx) by (unfold turn in T; unfold ax, ay, bx, b_; lia).
  assert (D : 0 < ax * bx + ay * b_).
  { apply Z.nle_gt. intros D. apply NS. unfold on_seg. split; [exact T|].
    assert (X : ax * bx <= 0 /\ ay * b_ <= 0).
    { assert (P1 : (ax * bx) * (ay * b_) = (ay * bx) * (ay * bx)) by (rewrite <- C at 1; ring).
      pose proof (Z.square_nonneg (ay * bx)). split; apply Z.nlt_ge; intros K; nia. }
    unfold ax, bx, ay, b_ in X. clear - X. destruct X as [X Y]. split; nia. }
  exists (bx * bx + b_ * b_), (ax * bx + ay * b_). split; [|split; [exact D|]].
  - destruct (Z.eq_dec bx 0), (Z.eq_dec b_ 0); subst; nia.
  - assert (C1 : b_ * (ax * b_) = b_ * (ay * bx)) by now rewrite C. assert (C2 : bx * (ax * b_) = bx * (ay * bx)) by now rewrite C. split; lia.
Qed.
Lemma contrib_dir q a b : contrib q a b = dir (py a - py q) (py b - py q) (turn a b q).
Proof.
  unfold contrib, dir.
  replace (py a <? py q) with (py a - py q <? 0) by (destruct (Z.ltb_spec (py a) (py q)), (Z.ltb_spec (py a - py q) 0); lia).
  replace (py b <? py q) with (py b - py q <? 0) by (destruct (Z.ltb_spec (py b) (py q)), (Z.ltb_spec (py b - py q) 0); lia).
  reflexivity.
Qed.
Lemma ray_turn q v a b : v <> P 0 0 -> ~ on_seg q a b ->
  ray_contrib q v a b - contrib q a b = (if cone v (psub b q) then 1 else 0) - (if cone v (psub a q) then 1 else 0).
Proof.
  intros NV NS. rewrite contrib_dir. unfold ray_contrib, cone.
  assert (T : turn a b q = area (psub a q) (psub b q)) by (unfold turn, area; cbn; ring).
  destruct (Z.eq_dec (py v) 0) as [V0|V0].
  - rewrite V0. change (0 <? 0) with false. cbv iota.
    assert (VX : px v <> 0) by (intros K; apply NV; destruct v; cbn in *; congruence).
    pose proof (same_direction q a b) as SD.
    unfold dir. rewrite T in *. unfold area in *. rewrite V0 in *. cbn [psub px py] in *.
    set (ax := px a - px q) in *. set (ay := py a - py q) in *. set (bx := px b - px q) in *. set (b_ := py b - py q) in *.
    clearbody ax ay bx b_. rewrite !Z.mul_0_l, !Z.sub_0_r.
    destruct (Z.ltb_spec 0 (px v)) as [VP|VN].
    + replace (px v * ay <? 0) with (ay <? 0) by (destruct (Z.ltb_spec ay 0), (Z.ltb_spec (px v * ay) 0); auto; nia).
      replace (px v * b_ <? 0) with (b_ <? 0) by (destruct (Z.ltb_spec b_ 0), (Z.ltb_spec (px v * b_) 0); auto; nia). lia.
    + replace (px v * ay <? 0) with (0 <? ay) by (destruct (Z.ltb_spec 0 ay), (Z.ltb_spec (px v * ay) 0); auto; nia).
      replace (px v * b_ <? 0) with (0 <? b_) by (destruct (Z.ltb_spec 0 b_), (Z.ltb_spec (px v * b_) 0); auto; nia).
      destruct (Z.eq_dec (ax * b_ - ay * bx) 0) as [Z0|NZ].
      * destruct (SD Z0 NS) as (m & n & M & N & E1 & E2). rewrite Z0. change (0 <? 0) with false. rewrite !andb_false_r.
        replace (ay <? 0) with (b_ <? 0) by (destruct (Z.ltb_spec b_ 0), (Z.ltb_spec ay 0); auto; nia).
        replace (ay =? 0) with (b_ =? 0) by (destruct (Z.eqb_spec b_ 0), (Z.eqb_spec ay 0); auto; nia).
        replace (ax <? 0) with (bx <? 0) by (destruct (Z.ltb_spec bx 0), (Z.ltb_spec ax 0); auto; nia). lia.
      * clear SD NS T. destruct (Z.ltb_spec 0 ay), (Z.ltb_spec ay 0), (Z.eqb_spec ay 0), (Z.ltb_spec 0 b_), (Z.ltb_spec b_ 0), (Z.eqb_spec b_ 0);
          try lia; destruct (Z.ltb_spec (ax * b_ - ay * bx) 0), (Z.ltb_spec 0 (ax * b_ - ay * bx)), (Z.ltb_spec ax 0), (Z.ltb_spec bx 0);
          cbn [negb andb orb]; try lia; exfalso; nia.
  - assert (H : forall u, (if py v <? 0 then (0 <=? area v u) && (py u <? 0)
        else if 0 <? py v then negb ((0 <=? py u) && (area v u <? 0)) else if 0 <? px v then false else (py u <? 0) || (py u =? 0) && (px u <? 0))
      = (fun A y => if py v <? 0 then (0 <=? A) && (y <? 0) else negb ((0 <=? y) && (A <? 0))) (area v u) (py u)).
    { intros u. cbv beta. destruct (Z.ltb_spec (py v) 0); [reflexivity|]. destruct (Z.ltb_spec 0 (py v)); [reflexivity | lia]. }
    cbv zeta. rewrite !H. apply dir_cone; auto.
    + rewrite T. unfold area. cbn [psub px py]. ring.
    + intros Z0. destruct (same_direction q a b Z0 NS) as (m & n & M & N & E1 & E2). exists m, n.
      repeat split; auto. unfold area. cbn [psub px py].
      pose proof (f_equal (Z.mul (py v)) E1). pose proof (f_equal (Z.mul (px v)) E2). lia.
Qed.

Lemma wsum_rays q v poly : v <> P 0 0 -> (forall a b, poly_edge poly a b -> ~ on_seg q a b) ->
  wsum q (closed poly) = zsum (fun i => ray_contrib q v (cyc poly i) (cyc poly (i + 1))) (length poly).
Proof.
  intros NV NS. destruct poly as [|x l] eqn:EP; [reflexivity|]. rewrite <- EP in *.
  assert (N0 : poly <> []) by (rewrite EP; congruence).
  assert (G : forall n i, wsum q (cycpath poly n i) = zsum (fun j => contrib q (cyc poly (i + j)) (cyc poly (i + j + 1))) n).
  { induction n as [|n IH]; intros i; [reflexivity|]. rewrite zsum_first.
    change (cycpath poly (S n) i) with (cyc poly i :: cycpath poly n (i + 1)).
    assert (E : exists r, cycpath poly n (i + 1) = cyc poly (i + 1) :: r) by (destruct n; eexists; reflexivity).
    destruct E as [r E]. rewrite E. change (wsum q (cyc poly i :: cyc poly (i + 1) :: r))
      with (contrib q (cyc poly i) (cyc poly (i + 1)) + wsum q (cyc poly (i + 1) :: r)). rewrite <- E, IH. rewrite Z.add_0_r. f_equal.
    apply zsum_ext. intros j _. replace (i + (j + 1)) with (i + 1 + j) by lia. reflexivity. }
  rewrite <- cycpath_closed, G by exact N0. clear G.
  set (f := fun i => if cone v (psub (cyc poly i) q) then 1 else 0).
  assert (D : zsum (fun i => ray_contrib q v (cyc poly i) (cyc poly (i + 1))) (length poly)
      - zsum (fun j => contrib q (cyc poly (0 + j)) (cyc poly (0 + j + 1))) (length poly)
      = zsum (fun i => f (i + 1) - f i) (length poly)).
  { rewrite <- zsum_sub. apply zsum_ext. intros i _. rewrite Z.add_0_l. unfold f. apply ray_turn; auto.
    apply NS. apply cyc_edge. rewrite EP. cbn. lia. }
  assert (Z0 : zsum (fun i => f (i + 1) - f i) (length poly) = 0).
  { assert (T : forall n, zsum (fun i => f (i + 1) - f i) n = f (Z.of_nat n) - f 0).
    { induction n as [|n IH]; [cbn; lia|]. cbn [zsum]. rewrite IH. replace (Z.of_nat (S n)) with (Z.of_nat n + 1) by lia. lia. }
    rewrite T. unfold f. replace (Z.of_nat (length poly)) with (0 + Z.of_nat (length poly)) by lia. rewrite cyc_period. lia. }
  lia.
Qed.

(** ** The loop, vertex by vertex *)
Section Loop.
Context (l : line) (poly : list pt) (NV : lvec l <> P 0 0) (NP : poly <> []).
Notation V := (cyc poly).
Notation n := (length poly).
Definition sgv (i : Z) : Z := Z.sgn (height l (V i)).
Definition alongv (i : Z) : Z := Z.sgn (dot (psub (V (i + 1)) (V i)) (lvec l)).
Lemma orient_sg i : orient_pl (V i) l = sgv i.
Proof. reflexivity. Qed.
Lemma loop_steps kb ke : forall m i,
  simple_loop kb ke l poly m i (sgv (i - 1)) (sgv i)
  = flat_map (fun j => vertex_step kb ke l poly (i + Z.of_nat j) (sgv (i + Z.of_nat j - 1)) (sgv (i + Z.of_nat j)) (sgv (i + Z.of_nat j + 1))) (seq 0 m).
Proof.
  induction m as [|m IH]; intros i; [reflexivity|]. cbn [simple_loop seq flat_map]. rewrite !Z.add_0_r, orient_sg. f_equal.
  replace (sgv i) with (sgv (i + 1 - 1)) by (f_equal; lia). rewrite IH, <- seq_shift, flat_map_concat_map, flat_map_concat_map, map_map.
  f_equal. apply map_ext. intros j. replace (i + Z.of_nat (S j)) with (i + 1 + Z.of_nat j) by lia. reflexivity.
Qed.
Lemma intersect_steps kb ke : intersect_simple kb ke l poly
  = Ok (flat_map (fun j => vertex_step kb ke l poly (Z.of_nat j) (sgv (Z.of_nat j - 1)) (sgv (Z.of_nat j)) (sgv (Z.of_nat j + 1))) (seq 0 n)).
Proof.
  unfold intersect_simple. replace (negb (peq (lvec l) (P 0 0))) with true.
  2:{ symmetry. apply negb_true_iff, not_true_iff_false. unfold peq. rewrite andb_true_iff, !Z.eqb_eq. intros [X Y]. apply NV.
      destruct (lvec l); cbn in *; congruence. }
  cbn [assert_then]. replace (match poly with [] => UB | _ :: _ => _ end) with
    (Ok (simple_loop kb ke l poly n 0 (orient_pl (V (-1)) l) (orient_pl (V 0) l))) by (destruct poly; congruence).
  rewrite !orient_sg. change (-1) with (0 - 1). rewrite loop_steps. reflexivity.
Qed.
End Loop.

(** ** Parameters of the crossings *)
(** The parameter of the common point of the line and the line through [a] and [b]. *)
Definition cp (l : line) (a b : pt) : Q := (inject_Z (area (psub (lbegin l) a) (psub b a)) / inject_Z (area (psub b a) (lvec l)))%Q.
Lemma area_heights l a b : area (psub b a) (lvec l) = height l a - height l b.
Proof. unfold height, area. cbn [psub px py]. ring. Qed.
Lemma dot_pos v : v <> P 0 0 -> 0 < dot v v.
Proof.
  intros N. unfold dot. destruct (Z.eq_dec (px v) 0), (Z.eq_dec (py v) 0); [|nia|nia|nia].
  exfalso. apply N. destruct v; cbn in *; congruence.
Qed.
Lemma inject_neq z : z <> 0 -> ~ (inject_Z z == 0)%Q.
Proof. intros H E. apply H. change 0%Q with (inject_Z 0) in E. now rewrite inject_Z_injective in E. Qed.
Lemma cp_project l q a b : lvec l <> P 0 0 -> height l q = 0 -> height l a <> height l b ->
  (cp l a b - project_scalar q l == inject_Z (turn a b q) / inject_Z (height l b - height l a))%Q.
Proof.
  intros NV HQ NE. unfold cp, project_scalar. rewrite area_heights.
  set (la := area (psub (lbegin l) a) (psub b a)). set (dq := dot (psub q (lbegin l)) (lvec l)).
  assert (E : (la + turn a b q) * dot (lvec l) (lvec l) = dq * (height l a - height l b)).
  { assert (K : (la + turn a b q) * dot (lvec l) (lvec l) - dq * (height l a - height l b) = height l q * dot (psub b a) (lvec l)).
    { unfold la, dq, turn, height, area, dot. cbn [psub px py]. ring. }
    rewrite HQ in K. lia. }
  pose proof (dot_pos _ NV) as D. assert (T : height l a - height l b <> 0) by lia.
  replace (height l b - height l a) with (- (height l a - height l b)) by lia.
  set (d := dot (lvec l) (lvec l)) in *. set (h := height l a - height l b) in *. set (t := turn a b q) in *. clearbody la dq d h t.
  apply (f_equal inject_Z) in E. rewrite !inject_Z_mult, inject_Z_plus in E. rewrite inject_Z_opp.
  assert (D0 : ~ (inject_Z d == 0)%Q) by (apply inject_neq; lia). apply inject_neq in T.
  assert (E' : (inject_Z dq == (inject_Z la + inject_Z t) * inject_Z d / inject_Z h)%Q) by (rewrite E; field; auto).
  rewrite E'. field. auto.
Qed.
Lemma quot_sign a b : b <> 0 -> ((0 < inject_Z a / inject_Z b)%Q <-> 0 < a * b).
Proof.
  intros B. assert (BB : 0 < b * b) by nia. pose proof (inject_pos _ BB) as BQ. pose proof (inject_neq b B) as B0.
  assert (E : (inject_Z (a * b) == inject_Z a / inject_Z b * inject_Z (b * b))%Q) by (rewrite !inject_Z_mult; field; auto).
  split; intros H.
  - rewrite Zlt_Qlt, E. change (inject_Z 0) with 0%Q. apply (Qmult_lt_r _ _ (inject_Z (b * b)) BQ) in H. now rewrite Qmult_0_l in H.
  - apply (Qmult_lt_r _ _ (inject_Z (b * b)) BQ). rewrite Qmult_0_l, <- E. apply inject_pos. lia.
Qed.
Lemma cp_ahead l q a b : lvec l <> P 0 0 -> height l q = 0 -> height l a <> height l b ->
  ((project_scalar q l < cp l a b)%Q <-> 0 < turn a b q * (height l b - height l a)).
Proof.
  intros NV HQ NE. rewrite <- quot_sign by lia. rewrite <- cp_project by auto. split; intros; lra.
Qed.
Lemma cp_begin l a b : lvec l <> P 0 0 -> height l a = 0 -> height l b <> 0 -> (cp l a b == project_scalar a l)%Q.
Proof.
  intros NV HA HB. pose proof (cp_project l a a b NV HA ltac:(lia)) as E. replace (turn a b a) with 0 in E by (unfold turn; ring).
  assert (Z0 : (inject_Z 0 / inject_Z (height l b - height l a) == 0)%Q) by reflexivity. rewrite Z0 in E. lra.
Qed.
Lemma cp_end l a b : lvec l <> P 0 0 -> height l b = 0 -> height l a <> 0 -> (cp l a b == project_scalar b l)%Q.
Proof.
  intros NV HA HB. pose proof (cp_project l b a b NV HA ltac:(lia)) as E. replace (turn a b b) with 0 in E by (unfold turn; ring).
  assert (Z0 : (inject_Z 0 / inject_Z (height l b - height l a) == 0)%Q) by reflexivity. rewrite Z0 in E. lra.
Qed.

(** ** Parity *)
Fixpoint bsum (f : Z -> bool) (n : nat) : bool := match n with O => false | S n => xorb (bsum f n) (f (Z.of_nat n)) end.
Lemma bsum_ext f g n : (forall i, f i = g i) -> bsum f n = bsum g n.
Proof. intros H. induction n as [|n IH]; [reflexivity|]. cbn. now rewrite IH, H. Qed.
Lemma bsum_xor f g n : bsum (fun i => xorb (f i) (g i)) n = xorb (bsum f n) (bsum g n).
Proof. induction n as [|n IH]; [reflexivity|]. cbn. rewrite IH. destruct (bsum f n), (bsum g n), (f (Z.of_nat n)), (g (Z.of_nat n)); reflexivity. Qed.
Lemma bsum_pred f n : xorb (bsum (fun i => f (i - 1)) n) (f (Z.of_nat n - 1)) = xorb (bsum f n) (f (-1)).
Proof.
  induction n as [|n IH]; [reflexivity|]. cbn [bsum]. replace (Z.of_nat (S n) - 1) with (Z.of_nat n) by lia.
  destruct (bsum (fun i => f (i - 1)) n), (bsum f n), (f (Z.of_nat n - 1)), (f (Z.of_nat n)), (f (-1)); cbn in *; congruence.
Qed.
Lemma bsum_odd (f : Z -> Z) n : Z.odd (zsum f n) = bsum (fun i => Z.odd (f i)) n.
Proof. induction n as [|n IH]; [reflexivity|]. cbn [zsum bsum]. now rewrite Z.odd_add, IH. Qed.
Definition par (pred : Q -> bool) (ts : list Q) : bool := fold_right (fun t b => xorb (pred t) b) false ts.
Lemma par_app pred a b : par pred (a ++ b) = xorb (par pred a) (par pred b).
Proof. induction a as [|t a IH]; [symmetry; apply xorb_false_l|]. cbn [app]. change (xorb (pred t) (par pred (a ++ b)) = xorb (xorb (pred t) (par pred a)) (par pred b)). rewrite IH. destruct (pred t), (par pred a), (par pred b); reflexivity. Qed.
Lemma par_odd pred ts : Z.odd (Z.of_nat (length (filter pred ts))) = par pred ts.
Proof.
  induction ts as [|t ts IH]; [reflexivity|]. cbn [filter par fold_right]. fold (par pred ts). destruct (pred t); [|now rewrite xorb_false_l].
  cbn [length]. rewrite Nat2Z.inj_succ, Z.odd_succ, <- Z.negb_odd, IH. destruct (par pred ts); reflexivity.
Qed.
Lemma par_flat pred (f : Z -> list Q) n : par pred (flat_map (fun j => f (Z.of_nat j)) (seq 0 n)) = bsum (fun i => par pred (f i)) n.
Proof.
  induction n as [|n IH]; [reflexivity|]. rewrite seq_S, flat_map_app, par_app, IH. cbn [bsum flat_map Nat.add]. now rewrite app_nil_r.
Qed.

Lemma sgn_three z : Z.sgn z = -1 \/ Z.sgn z = 0 \/ Z.sgn z = 1.
Proof. destruct z; cbn; lia. Qed.
Section Parity.
Context (l : line) (poly : list pt) (NV : lvec l <> P 0 0) (NP : poly <> []).
Notation V := (cyc poly).
Notation n := (length poly).
Notation h := (fun i => height l (V i)).
Notation sg := (sgv l poly).
Notation along := (alongv l poly).
Context (pred : Q -> bool) (PP : forall s t, (s == t)%Q -> pred s = pred t).
Context (HP : forall i, h i = 0 -> h (i + 1) = 0 -> pred (project_scalar (V i) l) = pred (project_scalar (V (i + 1)) l)).
Context (HD : forall i, h i = 0 -> h (i + 1) = 0 -> along i <> 0).
Context (HM : forall i, h (i - 1) = 0 -> h i = 0 -> h (i + 1) = 0 -> along (i - 1) = along i).

Definition part1 (i : Z) : bool :=
  if h i =? 0 then pred (project_scalar (V i) l) && (if h (i + 1) =? 0 then negb (along i <? 0) else h (i + 1) <? 0)
  else (sg (i + 1) =? - sg i) && pred (cp l (V i) (V (i + 1))).
Definition part2 (i : Z) : bool :=
  if h (i + 1) =? 0 then pred (project_scalar (V (i + 1)) l) && (if h i =? 0 then negb (along i <? 0) else h i <? 0) else false.
Definition parts (i : Z) : bool := negb (Bool.eqb (h i <? 0) (h (i + 1) <? 0)) && pred (cp l (V i) (V (i + 1))).

Lemma edge_parts i : xorb (part1 i) (part2 i) = parts i.
Proof.
  unfold part1, part2, parts, sgv. cbv beta.
  destruct (Z.eqb_spec (height l (V i)) 0) as [A|A], (Z.eqb_spec (height l (V (i + 1))) 0) as [B|B].
  - rewrite A, B, (HP i A B). cbn. destruct (pred _), (along i <? 0); reflexivity.
  - rewrite A, (PP _ _ (cp_begin l _ _ NV A B)). change (0 <? 0) with false. destruct (_ <? 0), (pred _); reflexivity.
  - rewrite B, (PP _ _ (cp_end l _ _ NV B A)). change (0 <? 0) with false. cbn [Z.sgn].
    replace (0 =? - Z.sgn (height l (V i))) with false by (symmetry; apply Z.eqb_neq; destruct (height l (V i)); cbn; lia).
    destruct (_ <? 0), (pred _); reflexivity.
  - rewrite xorb_false_r. f_equal. destruct (height l (V i)), (height l (V (i + 1))); try congruence; reflexivity.
Qed.
Lemma vertex_parts i : par pred (vertex_step Free Free l poly i (sg (i - 1)) (sg i) (sg (i + 1))) = xorb (part1 i) (part2 (i - 1)).
Proof.
  unfold vertex_step, part1, part2. cbv beta. replace (i - 1 + 1) with i by lia. unfold sgv.
  assert (SG : forall z, (Z.sgn z =? 0) = (z =? 0)) by (intros []; reflexivity). rewrite !SG.
  destruct (Z.eqb_spec (height l (V i)) 0) as [A|A].
  - cbn [between_endpoints endpoint_test]. rewrite andb_true_r.
    transitivity (pred (project_scalar (V i) l) &&
      (if height l (V (i - 1)) =? 0 then Z.sgn (height l (V (i + 1))) =? Z.sgn (dot (psub (V i) (V (i - 1))) (lvec l))
       else if height l (V (i + 1)) =? 0 then Z.sgn (height l (V (i - 1))) =? Z.sgn (dot (psub (V (i + 1)) (V i)) (lvec l))
       else negb (Z.sgn (height l (V (i + 1))) =? Z.sgn (height l (V (i - 1)))))).
    { match goal with |- _ = _ && ?c => destruct c end; cbn [par fold_right]; destruct (pred _); reflexivity. }
    change (Z.sgn (dot (psub (V (i + 1)) (V i)) (lvec l))) with (along i).
    assert (AL : Z.sgn (dot (psub (V i) (V (i - 1))) (lvec l)) = along (i - 1)) by (unfold alongv; now replace (i - 1 + 1) with i by lia).
    rewrite AL.
    assert (HM' := HM i). assert (HD1 := HD (i - 1)). assert (HD2 := HD i). replace (i - 1 + 1) with i in HD1 by lia. cbv beta in *.
    assert (S1 : along i = -1 \/ along i = 0 \/ along i = 1) by apply sgn_three.
    assert (S2 : along (i - 1) = -1 \/ along (i - 1) = 0 \/ along (i - 1) = 1) by apply sgn_three.
    generalize dependent (along (i - 1)). intros x _ HM' HD1 S2. generalize dependent (along i). intros y HM' HD2 S1.
    destruct (pred (project_scalar (V i) l)); cbn [andb]; [|reflexivity].
    destruct (height l (V (i - 1))) as [|u|u], (height l (V (i + 1))) as [|w|w]; cbn [Z.eqb Z.sgn Z.ltb Z.compare negb xorb];
      try (specialize (HM' eq_refl A eq_refl)); try (specialize (HD1 eq_refl A)); try (specialize (HD2 A eq_refl)); subst;
      repeat match goal with H : _ \/ _ |- _ => destruct H end; subst; try congruence; try reflexivity; lia.
  - rewrite xorb_false_r. destruct (Z.eqb_spec (Z.sgn (height l (V (i + 1)))) (- Z.sgn (height l (V i)))) as [E|E]; [|reflexivity].
    assert (NA : area (psub (V (i + 1)) (V i)) (lvec l) <> 0).
    { rewrite area_heights. destruct (height l (V i)), (height l (V (i + 1))); cbn in *; try congruence; lia. }
    destruct (cross_scalar_spec Free Free l (V i) (V (i + 1)) NA) as [-> _]. cbn. now rewrite xorb_false_r.
Qed.
Lemma parity_parts : exists ts, intersect_simple Free Free l poly = Ok ts /\ par pred ts = bsum parts n.
Proof.
  eexists. split; [apply intersect_steps; auto|].
  rewrite (par_flat pred (fun i => vertex_step Free Free l poly i (sg (i - 1)) (sg i) (sg (i + 1)))).
  rewrite (bsum_ext _ (fun i => xorb (part1 i) (part2 (i - 1)))) by apply vertex_parts.
  rewrite bsum_xor. rewrite (bsum_ext parts (fun i => xorb (part1 i) (part2 i))) by (intros; now rewrite edge_parts).
  rewrite bsum_xor. f_equal. pose proof (bsum_pred part2 n) as E.
  assert (E1 : part2 (-1) = part2 (Z.of_nat n - 1)).
  { unfold part2, alongv. replace (Z.of_nat n - 1) with (-1 + Z.of_nat n) by lia.
    replace (-1 + Z.of_nat n + 1) with (-1 + 1 + Z.of_nat n) by lia. now rewrite !cyc_period. }
  rewrite E1 in E. destruct (bsum (fun i => part2 (i - 1)) n), (bsum part2 n), (part2 (Z.of_nat n - 1)); cbn in E; congruence.
Qed.
End Parity.

(** ** Common points *)
Definition at_param (l : line) (t : Q) (x y : Q) : Prop :=
  (x == inject_Z (px (lbegin l)) + t * inject_Z (px (lvec l)))%Q /\ (y == inject_Z (py (lbegin l)) + t * inject_Z (py (lvec l)))%Q.
Definition on_edge (a b : pt) (x y : Q) : Prop := exists s, (0 <= s)%Q /\ (s <= 1)%Q
  /\ (x == inject_Z (px a) + s * inject_Z (px b - px a))%Q /\ (y == inject_Z (py a) + s * inject_Z (py b - py a))%Q.
Lemma parallel l p : lvec l <> P 0 0 -> height l p = 0 ->
  dot (lvec l) (lvec l) * (px p - px (lbegin l)) = dot (psub p (lbegin l)) (lvec l) * px (lvec l)
  /\ dot (lvec l) (lvec l) * (py p - py (lbegin l)) = dot (psub p (lbegin l)) (lvec l) * py (lvec l).
Proof.
  intros NV H. unfold height, area, dot in *. cbn [psub px py] in *. set (x := px p - px (lbegin l)) in *. set (y := py p - py (lbegin l)) in *.
  pose proof (f_equal (Z.mul (px (lvec l))) H). pose proof (f_equal (Z.mul (py (lvec l))) H). split; lia.
Qed.
Lemma project_at l p : lvec l <> P 0 0 -> height l p = 0 -> at_param l (project_scalar p l) (inject_Z (px p)) (inject_Z (py p)).
Proof.
  intros NV H. destruct (parallel l p NV H) as [X Y]. pose proof (dot_pos _ NV) as D. unfold at_param, project_scalar.
  set (d := dot (lvec l) (lvec l)) in *. set (e := dot (psub p (lbegin l)) (lvec l)) in *. clearbody d e.
  assert (D0 : ~ (inject_Z d == 0)%Q) by (apply inject_neq; lia).
  apply (f_equal inject_Z) in X, Y. unfold Zminus in X, Y. rewrite !inject_Z_mult, !inject_Z_plus, !inject_Z_opp in X, Y.
  split.
  - setoid_replace (inject_Z e / inject_Z d * inject_Z (px (lvec l)))%Q with ((inject_Z e * inject_Z (px (lvec l))) / inject_Z d)%Q by (field; auto).
    rewrite <- X. field. auto.
  - setoid_replace (inject_Z e / inject_Z d * inject_Z (py (lvec l)))%Q with ((inject_Z e * inject_Z (py (lvec l))) / inject_Z d)%Q by (field; auto).
    rewrite <- Y. field. auto.
Qed.
Lemma at_param_project l p t : lvec l <> P 0 0 -> at_param l t (inject_Z (px p)) (inject_Z (py p)) ->
  height l p = 0 /\ (t == project_scalar p l)%Q.
Proof.
  intros NV [X Y]. pose proof (dot_pos _ NV) as D. set (vx := px (lvec l)) in *. set (vy := py (lvec l)) in *.
  set (bx := px (lbegin l)) in *. set (b_ := py (lbegin l)) in *.
  assert (X' : (inject_Z (px p - bx) == t * inject_Z vx)%Q) by (unfold Zminus; rewrite inject_Z_plus, inject_Z_opp; lra).
  assert (Y' : (inject_Z (py p - b_) == t * inject_Z vy)%Q) by (unfold Zminus; rewrite inject_Z_plus, inject_Z_opp; lra).
  split.
  - apply inject_Z_injective. unfold height, area. cbn [psub px py]. fold vx vy bx b_. unfold Zminus at 1.
    rewrite inject_Z_plus, inject_Z_opp, !inject_Z_mult. fold (py p - b_). fold (px p - bx). rewrite X', Y'. change (inject_Z 0) with 0%Q. ring.
  - unfold project_scalar. assert (D0 : ~ (inject_Z (dot (lvec l) (lvec l)) == 0)%Q) by (apply inject_neq; lia).
    assert (E : (inject_Z (dot (psub p (lbegin l)) (lvec l)) == t * inject_Z (dot (lvec l) (lvec l)))%Q).
    { unfold dot. cbn [psub px py]. fold vx vy bx b_. rewrite !inject_Z_plus, !inject_Z_mult. fold (py p - b_). fold (px p - bx).
      rewrite X', Y'. ring. }
    rewrite E. field. auto.
Qed.

(** ** The number of crossings ahead of a point *)
(** Consecutive edges do not lie over each other, and no edge is a point. *)
Definition no_spike (poly : list pt) : Prop := forall i, turn (cyc poly (i - 1)) (cyc poly i) (cyc poly (i + 1)) = 0 ->
  0 < dot (psub (cyc poly i) (cyc poly (i - 1))) (psub (cyc poly (i + 1)) (cyc poly i)).
Lemma heights_parallel l a b : height l a = 0 -> height l b = 0 -> area (lvec l) (psub b a) = 0.
Proof. unfold height, area. cbn [psub px py]. lia. Qed.
Lemma line_turn l a b c : lvec l <> P 0 0 -> height l a = 0 -> height l b = 0 -> height l c = 0 -> turn a b c = 0.
Proof.
  intros NV A B C. pose proof (dot_pos _ NV) as D. pose proof (heights_parallel l a b A B) as E. pose proof (heights_parallel l a c A C) as F.
  assert (K : dot (lvec l) (lvec l) * turn a b c = area (lvec l) (psub c a) * dot (lvec l) (psub b a) - area (lvec l) (psub b a) * dot (lvec l) (psub c a)).
  { unfold turn, dot, area. cbn [psub px py]. ring. }
  rewrite E, F in K. nia.
Qed.
Lemma spike_along l poly i : lvec l <> P 0 0 -> no_spike poly ->
  height l (cyc poly (i - 1)) = 0 -> height l (cyc poly i) = 0 -> height l (cyc poly (i + 1)) = 0 -> alongv l poly (i - 1) = alongv l poly i.
Proof.
  intros NV NS A B C. specialize (NS i (line_turn l _ _ _ NV A B C)). unfold alongv. replace (i - 1 + 1) with i by lia.
  set (u := psub (cyc poly i) (cyc poly (i - 1))) in *. set (w := psub (cyc poly (i + 1)) (cyc poly i)) in *.
  assert (K : dot (lvec l) (lvec l) * dot u w = dot u (lvec l) * dot w (lvec l)).
  { pose proof (heights_parallel l _ _ A B) as E. fold u in E. clearbody u w.
    assert (K : dot (lvec l) (lvec l) * dot u w - dot u (lvec l) * dot w (lvec l) = area (lvec l) u * area (lvec l) w) by (unfold dot, area; ring).
    rewrite E in K. lia. }
  pose proof (dot_pos _ NV) as D. set (x := dot u (lvec l)) in *. set (y := dot w (lvec l)) in *. clearbody x y. assert (0 < x * y) by nia.
  destruct (Z.lt_trichotomy x 0) as [X|[X|X]].
  - rewrite !Z.sgn_neg by nia. reflexivity.
  - nia.
  - rewrite !Z.sgn_pos by nia. reflexivity.
Qed.
Lemma spike_distinct poly i : no_spike poly -> cyc poly i <> cyc poly (i + 1).
Proof.
  intros NS E. specialize (NS i). rewrite <- E in NS. replace (turn _ _ _) with 0 in NS by (unfold turn; ring).
  specialize (NS eq_refl). replace (dot _ _) with 0 in NS by (unfold dot; cbn [psub px py]; ring). lia.
Qed.
Lemma spike_nonzero l poly i : lvec l <> P 0 0 -> no_spike poly ->
  height l (cyc poly i) = 0 -> height l (cyc poly (i + 1)) = 0 -> alongv l poly i <> 0.
Proof.
  intros NV NS A B. apply (spike_distinct poly i) in NS. pose proof (dot_pos _ NV) as D. unfold alongv. rewrite Z.sgn_null_iff. intros Z0.
  pose proof (heights_parallel l _ _ A B) as E. apply NS. revert Z0 E. generalize (cyc poly i), (cyc poly (i + 1)). intros a b Z0 E.
  assert (X : dot (lvec l) (lvec l) * (px b - px a) = dot (psub b a) (lvec l) * px (lvec l) - area (lvec l) (psub b a) * py (lvec l))
    by (unfold dot, area; cbn [psub px py]; ring).
  assert (Y : dot (lvec l) (lvec l) * (py b - py a) = dot (psub b a) (lvec l) * py (lvec l) + area (lvec l) (psub b a) * px (lvec l))
    by (unfold dot, area; cbn [psub px py]; ring).
  rewrite Z0, E in X, Y. apply pt_eq; nia.
Qed.
Lemma poly_nonempty poly : no_spike poly -> poly <> [].
Proof. intros NS ->. apply (spike_distinct [] 0) in NS. now apply NS. Qed.

Theorem crossings_even l poly : lvec l <> P 0 0 -> no_spike poly ->
  exists ts, intersect_simple Free Free l poly = Ok ts /\ Z.even (Z.of_nat (length ts)) = true.
Proof.
  intros NV NS. pose proof (poly_nonempty poly NS) as NP.
  destruct (parity_parts l poly NV NP (fun _ => true) (fun _ _ _ => eq_refl) (fun _ _ _ => eq_refl)
    (fun i => spike_nonzero l poly i NV NS) (fun i => spike_along l poly i NV NS)) as (ts & E & PAR).
  exists ts. split; [exact E|]. rewrite <- Z.negb_odd.
  assert (F : filter (fun _ : Q => true) ts = ts) by (clear; induction ts; cbn; congruence).
  rewrite <- F, par_odd, PAR. set (f := fun i => height l (cyc poly i) <? 0).
  rewrite (bsum_ext _ (fun i => xorb (f (i + 1)) (f i))) by (intros i; unfold parts, f; destruct (_ <? 0), (_ <? 0); reflexivity).
  assert (T : forall n, bsum (fun i => xorb (f (i + 1)) (f i)) n = xorb (f (Z.of_nat n)) (f 0)).
  { induction n as [|n IH]; [cbn; now rewrite xorb_nilpotent|]. cbn [bsum]. rewrite IH. replace (Z.of_nat (S n)) with (Z.of_nat n + 1) by lia.
    destruct (f (Z.of_nat n)), (f (Z.of_nat n + 1)), (f 0); reflexivity. }
  rewrite T. unfold f. replace (Z.of_nat (length poly)) with (0 + Z.of_nat (length poly)) by lia. rewrite cyc_period.
  now rewrite xorb_nilpotent.
Qed.

Definition ahead (tq t : Q) : bool := negb (Qle_bool t tq).
Lemma ahead_iff tq t : ahead tq t = true <-> (tq < t)%Q.
Proof. unfold ahead. rewrite negb_true_iff, <- not_true_iff_false, Qle_bool_iff. split; [apply Qnot_le_lt | apply Qlt_not_le]. Qed.
Lemma line_between l q a b : lvec l <> P 0 0 -> height l q = 0 -> height l a = 0 -> height l b = 0 ->
  (project_scalar q l < project_scalar a l)%Q -> (project_scalar b l <= project_scalar q l)%Q -> on_seg q a b.
Proof.
  intros NV Q A B L1 L2. unfold on_seg. split; [apply (line_turn l); auto|].
  pose proof (dot_pos _ NV) as D. destruct (parallel l a NV A) as [AX AY], (parallel l b NV B) as [BX BY], (parallel l q NV Q) as [QX QY].
  unfold project_scalar in *. set (d := dot (lvec l) (lvec l)) in *.
  set (ea := dot (psub a (lbegin l)) (lvec l)) in *. set (eb := dot (psub b (lbegin l)) (lvec l)) in *. set (eq := dot (psub q (lbegin l)) (lvec l)) in *.
  clearbody ea eb eq d. pose proof (inject_pos d D) as DQ.
  assert (H1 : eq < ea).
  { apply (Qmult_lt_r _ _ _ DQ) in L1. rewrite !(Qmult_comm (_ / _)), !Qmult_div_r in L1 by lra. now rewrite <- Zlt_Qlt in L1. }
  assert (H2 : eb <= eq).
  { apply (Qmult_le_r _ _ _ DQ) in L2. rewrite !(Qmult_comm (_ / _)), !Qmult_div_r in L2 by lra. now rewrite <- Zle_Qle in L2. }
  clear L1 L2 DQ. set (vx := px (lvec l)) in *. set (vy := py (lvec l)) in *. set (bx := px (lbegin l)) in *. set (b_ := py (lbegin l)) in *. clearbody vx vy bx b_.
  assert (X : d * (px a - px q) = (ea - eq) * vx /\ d * (px q - px b) = (eq - eb) * vx) by (split; lia).
  assert (Y : d * (py a - py q) = (ea - eq) * vy /\ d * (py q - py b) = (eq - eb) * vy) by (split; lia).
  clear AX AY BX BY QX QY. destruct X as [X1 X2], Y as [Y1 Y2].
  assert (M : forall v u w, d * u = (ea - eq) * v -> d * w = (eq - eb) * v -> (0 <= u /\ 0 <= w) \/ (u <= 0 /\ w <= 0)).
  { clear - D H1 H2. intros v u w U W. destruct (Z_le_dec 0 v); [left | right]; nia. }
  pose proof (M _ _ _ X1 X2). pose proof (M _ _ _ Y1 Y2). lia.
Qed.
Theorem crossings_parity l poly q tq w : lvec l <> P 0 0 -> no_spike poly ->
  at_param l tq (inject_Z (px q)) (inject_Z (py q)) -> winding_number q poly = Wind w ->
  exists ts, intersect_simple Free Free l poly = Ok ts /\ Z.odd (Z.of_nat (length (filter (ahead tq) ts))) = Z.odd w.
Proof.
  intros NV NS AT W. pose proof (poly_nonempty poly NS) as NP. apply at_param_project in AT as [HQ TQ]; auto.
  pose proof (winding_spec q poly) as S. rewrite W in S. destruct S as [-> OUT].
  assert (LEN : (1 <= length poly)%nat) by (destruct poly; [congruence | cbn; lia]).
  assert (AP : forall s t, (s == t)%Q -> ahead tq s = ahead tq t).
  { intros s t E. apply Bool.eq_iff_eq_true. rewrite !ahead_iff. now rewrite E. }
  assert (HP : forall i, height l (cyc poly i) = 0 -> height l (cyc poly (i + 1)) = 0 ->
    ahead tq (project_scalar (cyc poly i) l) = ahead tq (project_scalar (cyc poly (i + 1)) l)).
  { intros i A B. assert (O := OUT _ _ (cyc_edge poly i LEN)). apply Bool.eq_iff_eq_true. rewrite !ahead_iff, TQ.
    split; intros K; apply Qnot_le_lt; intros M; apply O.
    - now apply (line_between l).
    - apply on_seg_sym. now apply (line_between l). }
  destruct (parity_parts l poly NV NP (ahead tq) AP HP (fun i => spike_nonzero l poly i NV NS) (fun i => spike_along l poly i NV NS)) as (ts & E & PAR).
  exists ts. split; [exact E|]. rewrite par_odd, PAR, (wsum_rays q (lvec l) poly NV OUT), bsum_odd. apply bsum_ext. intros i.
  unfold parts, ray_contrib. generalize (cyc poly i), (cyc poly (i + 1)). intros a b.
  assert (HH : forall p, area (lvec l) (psub p q) = height l p).
  { intros p. unfold height, area in *. cbn [psub px py] in *. lia. }
  rewrite !HH. destruct (Bool.eqb (height l a <? 0) (height l b <? 0)) eqn:EB.
  - apply Bool.eqb_prop in EB. unfold dir. rewrite EB. destruct (height l b <? 0); reflexivity.
  - apply Bool.eqb_false_iff in EB. cbn [negb andb]. assert (NE : height l a <> height l b) by congruence.
    pose proof (cp_ahead l q a b NV HQ NE) as CA.
    assert (R : ahead tq (cp l a b) = (0 <? turn a b q * (height l b - height l a))).
    { apply Bool.eq_iff_eq_true. rewrite ahead_iff, TQ, CA, Z.ltb_lt. reflexivity. }
    rewrite R. unfold dir. destruct (Z.ltb_spec (height l a) 0), (Z.ltb_spec (height l b) 0); try congruence; cbn [negb andb].
    + destruct (Z.ltb_spec 0 (turn a b q)), (Z.ltb_spec 0 (turn a b q * (height l b - height l a))); try reflexivity; exfalso; nia.
    + destruct (Z.ltb_spec (turn a b q) 0), (Z.ltb_spec 0 (turn a b q * (height l b - height l a))); try reflexivity; exfalso; nia.
Qed.

(** ** The reported points *)
Definition valid_kind (kb ke : endpoint) : Prop := match kb, ke with Free, Free => True | Closed, (Free | Closed) => True | Open, _ => True | _, _ => False end.
Lemma between_on_line kb ke l p : lvec l <> P 0 0 -> valid_kind kb ke -> height l p = 0 ->
  between_endpoints kb ke p l = on_line kb ke (project_scalar p l).
Proof.
  intros NV VK H. pose proof (dot_pos _ NV) as D. destruct (parallel l p NV H) as [PX PY]. unfold project_scalar.
  destruct (Qdiv_le_bool (dot (psub p (lbegin l)) (lvec l)) (dot (lvec l) (lvec l)) D) as (A & B & E & F).
  unfold between_endpoints, on_line, begin_ok, end_ok, endpoint_test, peq.
  assert (K : dot (lvec l) (lvec l) * dot (psub (lbegin l) p) (psub p (lend l))
    = dot (psub p (lbegin l)) (lvec l) * (dot (lvec l) (lvec l) - dot (psub p (lbegin l)) (lvec l))).
  { transitivity (dot (lvec l) (lvec l) * dot (psub p (lbegin l)) (lvec l)
      - ((dot (lvec l) (lvec l) * (px p - px (lbegin l))) * (px p - px (lbegin l)) + (dot (lvec l) (lvec l) * (py p - py (lbegin l))) * (py p - py (lbegin l)))).
    - unfold lend, dot. cbn [psub padd px py]. ring.
    - rewrite PX, PY. transitivity (dot (psub p (lbegin l)) (lvec l) * (dot (lvec l) (lvec l) - ((px p - px (lbegin l)) * px (lvec l) + (py p - py (lbegin l)) * py (lvec l)))); [ring|].
      reflexivity. }
  assert (BEG : px p = px (lbegin l) /\ py p = py (lbegin l) <-> dot (psub p (lbegin l)) (lvec l) = 0).
  { split; [intros [X Y]; unfold dot; cbn [psub px py]; rewrite X, Y; ring|]. intros Z0. rewrite Z0 in PX, PY. split; nia. }
  set (x := dot (psub p (lbegin l)) (lvec l)) in *. set (d := dot (lvec l) (lvec l)) in *. set (g := dot (psub (lbegin l) p) (psub p (lend l))) in *.
  clearbody x d g. clear PX PY. assert (X : forall p q : bool, (p = true <-> q = true) -> p = q) by (intros [] [] [? ?]; auto; symmetry; auto).
  destruct kb, ke; cbn [valid_kind] in VK; try contradiction; rewrite ?A, ?B, ?E, ?F, ?negb_involutive, ?andb_true_l, ?andb_true_r; try reflexivity.
  - apply X. rewrite !andb_true_iff, !negb_true_iff, !Z.ltb_ge. split; [intros G; split; nia | intros [G1 G2]; nia].
  - destruct ((px p =? px (lbegin l)) && (py p =? py (lbegin l))) eqn:EQ.
    + rewrite andb_true_iff, !Z.eqb_eq in EQ. apply BEG in EQ. subst x. reflexivity.
    + assert (x <> 0) by (intros Z0; apply BEG in Z0; rewrite <- !Z.eqb_eq, <- andb_true_iff in Z0; congruence).
      apply X. rewrite !andb_true_iff, !negb_true_iff, !Z.ltb_ge, Z.ltb_lt. split; [intros G; split; nia | intros [G1 G2]; nia].
  - apply X. rewrite !andb_true_iff, !Z.ltb_lt. split; [intros G; split; nia | intros [G1 G2]; nia].
Qed.
Lemma cp_on_edge l a b : lvec l <> P 0 0 -> height l a * height l b < 0 ->
  exists x y, at_param l (cp l a b) x y /\ on_edge a b x y.
Proof.
  intros NV H. exists (inject_Z (px (lbegin l)) + cp l a b * inject_Z (px (lvec l)))%Q, (inject_Z (py (lbegin l)) + cp l a b * inject_Z (py (lvec l)))%Q.
  split; [split; reflexivity|]. assert (NE : height l a - height l b <> 0) by nia.
  exists (inject_Z (height l a) / inject_Z (height l a - height l b))%Q.
  assert (S01 : (0 <= inject_Z (height l a) / inject_Z (height l a - height l b))%Q /\ (inject_Z (height l a) / inject_Z (height l a - height l b) <= 1)%Q).
  { split.
    - apply Qlt_le_weak, quot_sign; auto. nia.
    - assert (K : (0 < inject_Z (- height l b) / inject_Z (height l a - height l b))%Q) by (apply quot_sign; auto; nia).
      assert (K2 : (inject_Z (- height l b) / inject_Z (height l a - height l b) == 1 - inject_Z (height l a) / inject_Z (height l a - height l b))%Q).
      { rewrite inject_Z_opp. pose proof (inject_neq _ NE) as N0. unfold Zminus in *. rewrite inject_Z_plus, inject_Z_opp in *. field. auto. }
      rewrite K2 in K. lra. }
  destruct S01 as [S0 S1]. split; [exact S0|]. split; [exact S1|]. clear S0 S1.
  unfold cp. rewrite area_heights. pose proof (inject_neq _ NE) as N0.
  assert (X : px (lbegin l) * (height l a - height l b) + area (psub (lbegin l) a) (psub b a) * px (lvec l)
    = px a * (height l a - height l b) + height l a * (px b - px a)) by (unfold height, area; cbn [psub px py]; ring).
  assert (Y : py (lbegin l) * (height l a - height l b) + area (psub (lbegin l) a) (psub b a) * py (lvec l)
    = py a * (height l a - height l b) + height l a * (py b - py a)) by (unfold height, area; cbn [psub px py]; ring).
  set (d := height l a - height l b) in *. set (e := area (psub (lbegin l) a) (psub b a)) in *. set (g := height l a) in *. clearbody d e g.
  apply (f_equal inject_Z) in X, Y. rewrite !inject_Z_plus, !inject_Z_mult in X, Y. split.
  - setoid_replace (inject_Z (px (lbegin l)) + inject_Z e / inject_Z d * inject_Z (px (lvec l)))%Q
      with ((inject_Z (px (lbegin l)) * inject_Z d + inject_Z e * inject_Z (px (lvec l))) / inject_Z d)%Q by (field; auto). rewrite X. field. auto.
  - setoid_replace (inject_Z (py (lbegin l)) + inject_Z e / inject_Z d * inject_Z (py (lvec l)))%Q
      with ((inject_Z (py (lbegin l)) * inject_Z d + inject_Z e * inject_Z (py (lvec l))) / inject_Z d)%Q by (field; auto). rewrite Y. field. auto.
Qed.
Lemma vertex_on_edge a b : on_edge a b (inject_Z (px a)) (inject_Z (py a)).
Proof. exists 0%Q. repeat split; try lra; rewrite Qmult_0_l; lra. Qed.
Lemma sgn_opp_mul x y : x <> 0 -> Z.sgn y = - Z.sgn x -> x * y < 0.
Proof. destruct x, y; cbn; intros; try congruence; lia. Qed.
Theorem crossings_sound kb ke l poly : lvec l <> P 0 0 -> poly <> [] -> valid_kind kb ke ->
  exists ts, intersect_simple kb ke l poly = Ok ts /\
  forall t, In t ts -> on_line kb ke t = true /\ exists a b x y, poly_edge poly a b /\ on_edge a b x y /\ at_param l t x y.
Proof.
  intros NV NP VK. eexists. split; [apply intersect_steps; auto|]. intros t I. apply in_flat_map in I as (j & _ & I).
  assert (LEN : (1 <= length poly)%nat) by (destruct poly; [congruence | cbn; lia]).
  revert I. generalize (Z.of_nat j). clear j. intros i I. pose proof (cyc_edge poly i LEN) as ED.
  unfold vertex_step in I. destruct (Z.eqb_spec (sgv l poly i) 0) as [A|A].
  - unfold sgv in A. rewrite Z.sgn_null_iff in A.
    destruct (_ && between_endpoints kb ke (cyc poly i) l) eqn:E in I; [|contradiction]. destruct I as [<-|[]].
    apply andb_true_iff in E as [_ E]. rewrite between_on_line in E by auto. split; [exact E|].
    exists (cyc poly i), (cyc poly (i + 1)), (inject_Z (px (cyc poly i))), (inject_Z (py (cyc poly i))).
    split; [exact ED|]. split; [apply vertex_on_edge | now apply project_at].
  - destruct (Z.eqb_spec (sgv l poly (i + 1)) (- sgv l poly i)) as [B|B]; [|contradiction].
    assert (A' : height l (cyc poly i) <> 0) by (unfold sgv in A; rewrite Z.sgn_null_iff in A; exact A).
    pose proof (sgn_opp_mul _ _ A' B) as NEG.
    destruct (cross_scalar_spec kb ke l (cyc poly i) (cyc poly (i + 1))) as [E _]; [rewrite area_heights; nia|].
    rewrite E in I. apply filter_In in I as [[<-|[]] OL]. split; [exact OL|]. fold (cp l (cyc poly i) (cyc poly (i + 1))).
    destruct (cp_on_edge l _ _ NV NEG) as (x & y & AT & OE). exists (cyc poly i), (cyc poly (i + 1)), x, y. auto.
Qed.

(** ** Crossings are reported *)
Lemma edge_index poly a b : poly_edge poly a b -> exists j, (j < length poly)%nat /\ a = cyc poly (Z.of_nat j) /\ b = cyc poly (Z.of_nat j + 1).
Proof.
  intros E. assert (NP : poly <> []) by (intros ->; now apply path_edge_nil in E).
  unfold poly_edge in E. rewrite <- cycpath_closed in E by exact NP. destruct E as (l1 & l2 & E).
  assert (L : length (cycpath poly (length poly) 0) = length (l1 ++ a :: b :: l2)) by now rewrite E.
  rewrite cycpath_length, app_length in L. cbn [length] in L. exists (length l1). split; [lia|].
  split.
  - transitivity (nth (length l1) (cycpath poly (length poly) 0) (P 0 0)).
    + rewrite E, app_nth2, Nat.sub_diag by lia. reflexivity.
    + rewrite cycpath_nth by lia. now rewrite Z.add_0_l.
  - transitivity (nth (S (length l1)) (cycpath poly (length poly) 0) (P 0 0)).
    + rewrite E, app_nth2 by lia. replace (S (length l1) - length l1)%nat with 1%nat by lia. reflexivity.
    + rewrite cycpath_nth by lia. f_equal. lia.
Qed.
Lemma common_cp l a b t x y : lvec l <> P 0 0 -> height l a <> height l b -> at_param l t x y -> on_edge a b x y -> (t == cp l a b)%Q.
Proof.
  intros NV NE [X Y] (s & _ & _ & X2 & Y2). unfold cp. rewrite area_heights. assert (D : height l a - height l b <> 0) by lia.
  apply inject_neq in D.
  assert (E : (inject_Z (area (psub (lbegin l) a) (psub b a)) == t * inject_Z (height l a - height l b))%Q).
  { unfold height, area, Zminus. cbn [psub px py]. unfold Zminus in *.
    rewrite inject_Z_plus, inject_Z_opp in X2, Y2. repeat (rewrite inject_Z_plus || rewrite inject_Z_opp || rewrite inject_Z_mult).
    set (ax := inject_Z (px a)) in *. set (ay := inject_Z (py a)) in *. set (bx := inject_Z (px b)) in *. set (b_ := inject_Z (py b)) in *.
    set (cx := inject_Z (px (lbegin l))) in *. set (cy := inject_Z (py (lbegin l))) in *. set (vx := inject_Z (px (lvec l))) in *. set (vy := inject_Z (py (lvec l))) in *.
    assert (CX : (cx == ax + s * (bx + - ax) - t * vx)%Q) by lra. assert (CY : (cy == ay + s * (b_ + - ay) - t * vy)%Q) by lra.
    rewrite CX, CY. ring. }
  rewrite E. field. auto.
Qed.
Theorem crossings_complete kb ke l poly ts : lvec l <> P 0 0 -> valid_kind kb ke -> intersect_simple kb ke l poly = Ok ts ->
  (forall a b t x y, poly_edge poly a b -> height l a * height l b < 0 -> on_edge a b x y -> at_param l t x y -> on_line kb ke t = true ->
     exists t', In t' ts /\ (t' == t)%Q)
  /\ (forall i t, height l (cyc poly (i - 1)) * height l (cyc poly (i + 1)) < 0 -> at_param l t (inject_Z (px (cyc poly i))) (inject_Z (py (cyc poly i))) ->
     on_line kb ke t = true -> exists t', In t' ts /\ (t' == t)%Q).
Proof.
  intros NV VK E. assert (NP : poly <> []).
  { intros ->. unfold intersect_simple in E. destruct (negb _) in E; discriminate. }
  rewrite intersect_steps in E by auto. injection E as <-. split.
  - intros a b t x y ED NEG OE AT OL. apply edge_index in ED as (j & J & -> & ->).
    assert (NE : height l (cyc poly (Z.of_nat j)) <> height l (cyc poly (Z.of_nat j + 1))) by nia.
    pose proof (common_cp l _ _ t x y NV NE AT OE) as T. eexists. split; [apply in_flat_map; exists j; split; [apply in_seq; lia|]|symmetry; exact T].
    unfold vertex_step. assert (A0 : height l (cyc poly (Z.of_nat j)) <> 0) by nia.
    destruct (Z.eqb_spec (sgv l poly (Z.of_nat j)) 0) as [Z0|_]; [unfold sgv in Z0; rewrite Z.sgn_null_iff in Z0; contradiction|].
    replace (sgv l poly (Z.of_nat j + 1) =? - sgv l poly (Z.of_nat j)) with true.
    2:{ symmetry. apply Z.eqb_eq. unfold sgv. destruct (height l (cyc poly (Z.of_nat j))), (height l (cyc poly (Z.of_nat j + 1))); cbn in *; try lia; reflexivity. }
    destruct (cross_scalar_spec kb ke l (cyc poly (Z.of_nat j)) (cyc poly (Z.of_nat j + 1))) as [-> _]; [rewrite area_heights; lia|].
    apply filter_In. split; [left; reflexivity|]. rewrite <- OL. apply on_line_proper. now rewrite T.
  - intros i t NEG AT OL. apply at_param_project in AT as [H T]; auto.
    set (n := Z.of_nat (length poly)). assert (N : 0 < n) by (unfold n; destruct poly; [congruence | cbn [length]; lia]).
    pose proof (Z.mod_pos_bound i n N) as B. set (j := Z.to_nat (i mod n)).
    assert (C : forall d, cyc poly (i + d) = cyc poly (Z.of_nat j + d)).
    { intros d. unfold j. rewrite Z2Nat.id by lia. unfold cyc. fold n. now rewrite Z.add_mod_idemp_l by lia. }
    pose proof (C 0) as C0. rewrite !Z.add_0_r in C0. pose proof (C 1) as C1. pose proof (C (-1)) as C2.
    change (i + -1) with (i - 1) in C2. change (Z.of_nat j + -1) with (Z.of_nat j - 1) in C2. rewrite C0, C1, C2 in *. clear C C0 C1 C2.
    exists (project_scalar (cyc poly (Z.of_nat j)) l). split; [|now symmetry].
    apply in_flat_map. exists j. split; [apply in_seq; unfold j, n in *; lia|]. unfold vertex_step, sgv. rewrite H. cbn [Z.sgn Z.eqb].
    set (u := height l (cyc poly (Z.of_nat j - 1))) in *. set (w := height l (cyc poly (Z.of_nat j + 1))) in *.
    replace (Z.sgn u =? 0) with false by (symmetry; apply Z.eqb_neq; rewrite Z.sgn_null_iff; nia).
    replace (Z.sgn w =? 0) with false by (symmetry; apply Z.eqb_neq; rewrite Z.sgn_null_iff; nia).
    replace (Z.sgn w =? Z.sgn u) with false by (symmetry; apply Z.eqb_neq; intros K; clearbody u w; destruct u, w; cbn in *; try lia; discriminate).
    cbn [negb andb]. rewrite between_on_line by auto. rewrite (on_line_proper kb ke _ t) by now symmetry. rewrite OL. left. reflexivity.
Qed.
