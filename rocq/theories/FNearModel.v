(** Model of the closest pair and the largest distance over floating point numbers: as PolyModel.v and
    ExtremeModel.v, with the arithmetic of FGeoModel.v. *)
From Coq Require Import ZArith QArith Qround Qpower Qabs List Bool.
From Verif Require Import Outcome FGeoModel FPolyModel FExtModel.
Import ListNotations.
Local Open Scope Z_scope.

(** std::sqrt, correctly rounded (IEEE 754), used at numeric/arithmetic/exponential/square_root.hpp:17-20. *)
(** The integer nearest to the square root of a rational that is not negative, the even one of two. *)
Definition nearest_root (q : Q) : Z :=
  let s := Z.sqrt (Qfloor q) in
  match Qcompare q (inject_Z (s * s + s) + (1 # 4)) with
  | Lt => s
  | Gt => s + 1
  | Eq => if Z.even s then s else s + 1
  end.
(** The [k] with 2^(k-1) <= root < 2^k, the exponent of the last bit of the root of a positive number, and the root. *)
(* The language (IEEE 754). *)
Definition root_magnitude (q : Q) : Z := (magnitude q + 1) / 2.
Definition root_bit (f : format) (q : Q) : Z := Z.max (emin f) (root_magnitude q - prec f).
Definition round_root (f : format) (q : Q) : Q :=
  (inject_Z (nearest_root (q / 2 ^ (2 * root_bit f q))) * 2 ^ root_bit f q)%Q.
(* The language (IEEE 754). *)
Definition fsqrt (f : format) (a : num) : num :=
  match a with
  | Fin q => match Qcompare q 0 with Lt => NaN | Eq => Fin 0 | Gt => Fin (Qred (round_root f q)) end
  | Inf n => if n then NaN else Inf false
  | NaN => NaN
  end.
(** numeric/comparison/abs.hpp:26-32 *)
Definition nabs (a : num) : num :=
  match a with Fin q => Fin (Qabs q) | Inf _ => Inf false | NaN => NaN end.

(** point.hpp:210-227: from 0, in order *)
Definition fdot2 (f : format) (p : fpt) : num :=
  fadd f (fadd f (Fin 0) (fmul f (fx p) (fx p))) (fmul f (fy p) (fy p)).
(** distance/point_point.hpp:14-19, point/norm.hpp:14-17 *)
Definition fdistance (f : format) (p q : fpt) : num := fsqrt f (fdot2 f (fpsub f p q)).

(** ** nearest/multi_point.hpp *)
(* Lines 23-25 *)
Definition fy_less (l r : fpt) : bool := nless (fy l) (fy r).
(* Lines 21, 31-33 *)
Definition fcloser : Type := num * (fpt * fpt).
(* Lines 29-30 *)
Fixpoint findex_pairs (points : list fpt) : list (fpt * fpt) :=
  match points with [] => [] | p :: l => map (pair p) l ++ findex_pairs l end.
(** Lines 31-33 after the first pair *)
Definition fbrute_step (f : format) (res : fcloser) (pq : fpt * fpt) : fcloser :=
  let dist := fdistance f (fst pq) (snd pq) in if nless dist (fst res) then (dist, pq) else res.
(** Lines 28-35 *)
Definition fbrute (f : format) (points : list fpt) : fcloser :=
  match findex_pairs points with
  | [] => (Fin 0, (fzero, fzero))
  | pq :: l => fold_left (fbrute_step f) l (fdistance f (fst pq) (snd pq), pq)
  end.
(** std::merge, used at line 45 *)
Fixpoint fmerge_by (less : fpt -> fpt -> bool) (l1 : list fpt) : list fpt -> list fpt :=
  match l1 with
  | [] => fun l2 => l2
  | a :: l1' =>
      fix go (l2 : list fpt) : list fpt :=
        match l2 with
        | [] => a :: l1'
        | b :: l2' => if less b a then b :: go l2' else a :: fmerge_by less l1' (b :: l2')
        end
  end.
(** Lines 50-56; [tmp] with the last element first. *)
Fixpoint fstrip_inner (f : format) (p : fpt) (tmp : list fpt) (res : fcloser) : fcloser :=
  match tmp with
  | [] => res
  | q :: tmp =>
      if negb (nless (fsub f (fy p) (fy q)) (fst res)) then res
      else
        let dist := fdistance f p q in
        fstrip_inner f p tmp (if nless dist (fst res) then (dist, (p, q)) else res)
  end.
(** Lines 47-59 *)
Fixpoint fstrip_loop (f : format) (mx : num) (points tmp : list fpt) (res : fcloser) : fcloser :=
  match points with
  | [] => res
  | p :: points =>
      if nless (nabs (fsub f (fx p) mx)) (fst res)
      then fstrip_loop f mx points (p :: tmp) (fstrip_inner f p tmp res)
      else fstrip_loop f mx points tmp res
  end.
(** Lines 19-61: the result and the points as they are left. *)
Fixpoint fnearest_rec (fuel : nat) (f : format) (points : list fpt) : outcome (fcloser * list fpt) :=
  let n := length points in
  if (n <=? 3)%nat then Ok (fbrute f points, fsort fy_less points)
  else
    match fuel with
    | O => NoFuel
    | S fuel =>
        let middle := (n / 2)%nat in
        let mx := fx (fvertex points middle) in
        do (lres, lpoints) <- fnearest_rec fuel f (firstn middle points);
        do (rres, rpoints) <- fnearest_rec fuel f (skipn middle points);
        let res := if nless (fst rres) (fst lres) then rres else lres in
        let points := fmerge_by fy_less lpoints rpoints in
        Ok (fstrip_loop f mx points [] res, points)
    end.
(** Lines 71-74 *)
Fixpoint fadjacent_equal (points : list fpt) : option (fpt * fpt) :=
  match points with
  | p :: ((q :: _) as l) => if fpeq p q then Some (p, q) else fadjacent_equal l
  | _ => None
  end.
(** Lines 66-78 *)
Definition fnearest_pair (f : format) (points : list fpt) : outcome (fpt * fpt) :=
  if negb (1 <? Z.of_nat (length points)) then AssertFail
  else
    let points := fsort fpless points in
    match fadjacent_equal points with
    | Some pq => Ok pq
    | None => do (res, _) <- fnearest_rec (length points) f points; Ok (snd res)
    end.

(** ** polygon/max_distance.hpp:18-25 *)
(** Lines 21-23 with numeric/comparison/min_max.hpp:35-46 *)
Definition fmax_step (f : format) (poly : list fpt) (res : num) (ij : nat * nat) : num :=
  let dist := fdistance f (fvertex poly (fst ij)) (fvertex poly (snd ij)) in if nless res dist then dist else res.
Definition fmax_distance (f : format) (poly : list fpt) : outcome num :=
  do pairs <- fantipodal_vertices f poly; Ok (fold_left (fmax_step f poly) pairs (Fin 0)).
