(** C109: tangents from a point to a circle, angles and bisectors. *)
From Coq Require Import QArith Qcanon List Bool.
From Verif Require Import Outcome VecModel VecProofs CrossModel CrossProofs TangentModel TangentProofs.
Import ListNotations.
Local Open Scope Qc_scope.

(** ** C109 *)
(** [exact_at root x]: the square root of [x] is computed exactly.  For a point outside of the
    circle the points of contact are output: those of the circle at which the radius is
    perpendicular to the line from the point. *)
Theorem C109_contact : forall root p c, length p = 2%nat -> length (center c) = 2%nat -> 0 <= radius c ->
  let d2 := norm2 (vsub p (center c)) in
  exact_at root d2 -> exact_at root (d2 - radius c * radius c) ->
  (forall d, d * d = d2 - radius c * radius c -> let x := circles_disc (Sp p d) c in 0 < x -> root x * root x = x) ->
  radius c * radius c < d2 ->
  exists pts, tangents root p c = Ok (Out pts 0) /\
    forall q, In q pts <-> length q = 2%nat /\ norm2 (vsub q (center c)) = radius c * radius c /\ dot (vsub q p) (vsub q (center c)) = 0.
Proof. exact tangents_outside. Qed.
Theorem C109_two : forall root p c, length p = 2%nat -> length (center c) = 2%nat -> 0 < radius c ->
  let d2 := norm2 (vsub p (center c)) in
  exact_at root d2 -> exact_at root (d2 - radius c * radius c) ->
  (forall d, d * d = d2 - radius c * radius c -> let x := circles_disc (Sp p d) c in 0 < x -> root x * root x = x) ->
  radius c * radius c < d2 ->
  exists a b, tangents root p c = Ok (Out [a; b] 0) /\ a <> b.
Proof. exact tangents_two. Qed.
(** So the lines through the point and the points of contact do not enter the circle. *)
Theorem C109_line : forall p q c r2 t, length p = 2%nat -> length q = 2%nat -> length c = 2%nat ->
  norm2 (vsub q c) = r2 -> dot (vsub q p) (vsub q c) = 0 -> r2 <= norm2 (vsub (vadd p (vscale t (vsub q p))) c).
Proof. exact tangent_line. Qed.
Theorem C109_border_inside : forall root p c, length p = length (center c) -> 0 <= radius c -> let d2 := norm2 (vsub p (center c)) in
  exact_at root d2 ->
  (d2 = radius c * radius c -> tangents root p c = Ok (Out [p] 1)) /\ (d2 < radius c * radius c -> tangents root p c = Ok (Out [] 0)).
Proof. exact tangents_border. Qed.
(** Finding: the directions for a point outside are never those of the tangents: both lines enter
    the circle.  The distance of the center from the line along [w] is [|area2 w cv| / |w|]. *)
Theorem C109_polar_refuted : forall root p c, length p = 2%nat -> length (center c) = 2%nat -> 0 < radius c ->
  let d2 := norm2 (vsub p (center c)) in exact_at root d2 -> radius c * radius c < d2 ->
  exists u v, tangents_polar root p c = [u; v] /\ forall w, w = u \/ w = v ->
    norm2 w <> 0 /\ area2 w (vsub (center c) p) * area2 w (vsub (center c) p) < radius c * radius c * norm2 w.
Proof. exact polar_wrong. Qed.
Theorem C109_polar_border : forall root p c, length p = 2%nat -> length (center c) = 2%nat -> 0 <= radius c ->
  let d2 := norm2 (vsub p (center c)) in exact_at root d2 -> d2 = radius c * radius c ->
  exists u, tangents_polar root p c = [u] /\ dot u (vsub p (center c)) = 0 /\ norm2 u = d2.
Proof. exact polar_border. Qed.
(** Finding: two points are written but the iterator returned is the one given. *)
Theorem C109_iterator_refuted : exists root p c a b, 0 < radius c /\ exact_at root (norm2 (vsub p (center c)))
  /\ a <> b /\ tangents root p c = Ok (Out [a; b] 0).
Proof.
  exists (fun x => if Qc_eq_dec x (Q2Qc 25) then Q2Qc 5 else if Qc_eq_dec x (Q2Qc 16) then Q2Qc 4 else Q2Qc (24 # 25)).
  exists [0; 0], (Sp [Q2Qc 5; 0] (Q2Qc 3)), [Q2Qc (16 # 5); Q2Qc (- 12 # 5)], [Q2Qc (16 # 5); Q2Qc (12 # 5)].
  split; [reflexivity|]. split; [split; [discriminate | now apply Qc_is_canon]|]. split; [discriminate|].
  vm_compute. repeat f_equal; now apply Qc_is_canon.
Qed.
(** The angle from [l] to [r], as a complex number, turns [l] into the direction of [r]. *)
Theorem C109_angle : forall l r, length l = 2%nat -> length r = 2%nat -> angle_add l (angle2 l r) = vscale (norm2 l) r.
Proof. exact angle_rotates. Qed.
(** The bisector has the same cosine with both vectors and is between them. *)
Theorem C109_bisector : forall root l r, length l = length r -> exact_at root (norm2 l) -> exact_at root (norm2 r) ->
  dot (bisector root l r) l * root (norm2 r) = dot (bisector root l r) r * root (norm2 l).
Proof. exact bisector_angles. Qed.
Theorem C109_bisector_between : forall root l r, length l = 2%nat -> length r = 2%nat ->
  area2 l (bisector root l r) = root (norm2 l) * area2 l r /\ area2 (bisector root l r) r = root (norm2 r) * area2 l r.
Proof. exact bisector_between. Qed.
Example C109_case :
  let root := fun x => if Qc_eq_dec x (Q2Qc 25) then Q2Qc 5 else if Qc_eq_dec x (Q2Qc 16) then Q2Qc 4 else Q2Qc (24 # 25) in
  let p := [0; 0] in let c := Sp [Q2Qc 5; 0] (Q2Qc 3) in
  let d2 := norm2 (vsub p (center c)) in
  exact_at root d2 /\ exact_at root (d2 - radius c * radius c) /\ radius c * radius c < d2
  /\ root (circles_disc (Sp p (Q2Qc 4)) c) * root (circles_disc (Sp p (Q2Qc 4)) c) = circles_disc (Sp p (Q2Qc 4)) c
  /\ (exists b, bisector root [Q2Qc 3; Q2Qc 4] [Q2Qc 5; 0] = b /\ b = [Q2Qc 40; Q2Qc 20]).
Proof.
  cbv zeta. repeat split; try discriminate; try now apply Qc_is_canon. eexists. split; [vm_compute; reflexivity|].
  apply cons2_eq. split; now apply Qc_is_canon.
Qed.

Print Assumptions C109_contact.
Print Assumptions C109_two.
Print Assumptions C109_line.
Print Assumptions C109_border_inside.
Print Assumptions C109_polar_refuted.
Print Assumptions C109_polar_border.
Print Assumptions C109_iterator_refuted.
Print Assumptions C109_angle.
Print Assumptions C109_bisector.
Print Assumptions C109_bisector_between.
