(** Proofs about the format that flushes after each unit. *)
From Coq Require Import ZArith List Bool Lia.
From Verif Require Import Outcome DeviceModel DeviceProofs BufferProofs ShortModel ShortProofs UnitFlushModel.
Import ListNotations.
Local Open Scope Z_scope.

Fixpoint uarg_rect' (P : uarg -> Prop) (H1 : forall w, P (UOne w)) (H2 : forall c n, P (URepeat c n)) (H3 : P UFlush)
  (H4 : forall l, Forall P l -> P (UNode l)) (a : uarg) : P a :=
  match a with
  | UOne w => H1 w
  | URepeat c n => H2 c n
  | UFlush => H3
  | UNode l => H4 l ((fix each l : Forall P l := match l with [] => Forall_nil _ | a :: l => Forall_cons _ (uarg_rect' P H1 H2 H3 H4 a) (each l) end) l)
  end.

(** ** Specification *)
(** The bytes of an argument. *)
Fixpoint udata (a : uarg) : list Z :=
  match a with
  | UOne (WChar c) => [c]
  | UOne (WSpan xs) => xs
  | URepeat c n => repeat c n
  | UFlush => []
  | UNode l => flat_map udata l
  end.
(** The arguments of all levels; a flush that is asked for is one more flush. *)
Fixpoint unodes (a : uarg) : nat :=
  match a with
  | UOne _ | URepeat _ _ => 1
  | UFlush => 2
  | UNode l => S (list_sum (map unodes l))
  end.

(** ** The calls *)
(** Writes between flushes. *)
Fixpoint units (a : uarg) : list (list wop) :=
  match a with
  | UOne w => [[w]]
  | URepeat c n => [repeat (WChar c) n]
  | UFlush => [[]; []]
  | UNode l => flat_map units l ++ [[]]
  end.
Definition unit_ops (us : list (list wop)) : list bop := flat_map (fun ws => map BWrite ws ++ [BFlush]) us.
Lemma unit_ops_app a b : unit_ops (a ++ b) = unit_ops a ++ unit_ops b.
Proof. apply flat_map_app. Qed.

(** ** Any device *)
Section Any.
Context {D : Type} (dstep : D -> bop -> outcome (D * Z)).
Fixpoint drun (d : D) (os : list bop) : outcome (D * list Z) :=
  match os with
  | [] => Ok (d, [])
  | o :: r => do (d1, n) <- dstep d o; do (d2, ns) <- drun d1 r; Ok (d2, n :: ns)
  end.
Lemma drun_app os1 : forall d os2, drun d (os1 ++ os2) = do (d1, n1) <- drun d os1; do (d2, n2) <- drun d1 os2; Ok (d2, n1 ++ n2).
Proof.
  induction os1 as [|o os1 IH]; intros d os2; cbn [app drun bind].
  - destruct (drun d os2) as [[d2 n2]| | | |]; reflexivity.
  - destruct (dstep d o) as [[d1 n]| | | |]; cbn [bind]; try reflexivity. rewrite IH.
    destruct (drun d1 os1) as [[d2 n1]| | | |]; cbn [bind]; try reflexivity. destruct (drun d2 os2) as [[d3 n2]| | | |]; reflexivity.
Qed.

Lemma uwrite_node l d : uwrite dstep (UNode l) d = do (d1, ok) <- uwrites dstep l d; if ok : bool then do (d2, _) <- dstep d1 BFlush; Ok (d2, true) else Ok (d1, false).
Proof. reflexivity.
Qed.

Lemma urepeat_run c n : forall d d' ns, drun d (map BWrite (repeat (WChar c) n)) = Ok (d', ns) -> urepeat dstep c n d = Ok d'.
Proof.
  induction n as [|n IH]; intros d d' ns H; cbn [repeat map drun urepeat] in *; [injection H as <- <-; reflexivity|].
  destruct (dstep d (BWrite (WChar c))) as [[d1 m]| | | |]; cbn [bind] in *; try discriminate.
  destruct (drun d1 (map BWrite (repeat (WChar c) n))) as [[d2 ns2]| | | |] eqn:E; cbn [bind] in H; try discriminate. injection H as <- <-. eapply IH, E.
Qed.

(** What was taken of each write. *)
Definition whole (o : bop) (n : Z) : Prop := match o with BWrite w => n = wop_size w | BFlush => True end.

Definition runs_well (us : list (list wop)) (f : D -> outcome (D * bool)) : Prop :=
  forall d d' ns, drun d (unit_ops us) = Ok (d', ns) -> Forall2 whole (unit_ops us) ns -> f d = Ok (d', true).

Lemma drun_split os1 os2 d d' ns : drun d (os1 ++ os2) = Ok (d', ns) -> Forall2 whole (os1 ++ os2) ns ->
  exists d1 n1 n2, drun d os1 = Ok (d1, n1) /\ Forall2 whole os1 n1 /\ drun d1 os2 = Ok (d', n2) /\ Forall2 whole os2 n2.
Proof.
  rewrite drun_app. intros H F. destruct (drun d os1) as [[d1 n1]| | | |] eqn:E1; cbn [bind] in H; try discriminate.
  destruct (drun d1 os2) as [[d2 n2]| | | |] eqn:E2; cbn [bind] in H; try discriminate. injection H as <- <-.
  assert (L : forall os d d' ns, drun d os = Ok (d', ns) -> length ns = length os).
  { clear. induction os as [|o os IH]; intros d d' ns H; cbn [drun] in H; [injection H as <- <-; reflexivity|].
    destruct (dstep d o) as [[d1 n]| | | |]; cbn [bind] in H; try discriminate. destruct (drun d1 os) as [[d2 n2]| | | |] eqn:E; cbn [bind] in H; try discriminate.
    injection H as <- <-. cbn. f_equal. eapply IH, E. }
  apply L in E1 as L1. exists d1, n1, n2. split; [reflexivity|].
  assert (X : Forall2 whole os1 n1 /\ Forall2 whole os2 n2); [|destruct X; auto].
  clear L E1 E2.
  revert n1 L1 F. induction os1 as [|o os1 IH]; intros [|n n1] L1 F; cbn in L1; try lia; cbn [app] in F; [auto|].
  inversion F; subst. destruct (IH n1) as [A B]; [lia|assumption|]. auto.
Qed.

Lemma uwrites_well l : Forall (fun a => runs_well (units a) (uwrite dstep a)) l -> runs_well (flat_map units l) (uwrites dstep l).
Proof.
  induction 1 as [|a l H F IH]; intros d d' ns R W; cbn [flat_map uwrites] in *.
  - cbn in R. injection R as <- <-. reflexivity.
  - rewrite unit_ops_app in R, W. destruct (drun_split _ _ _ _ _ R W) as (d1 & n1 & n2 & R1 & W1 & R2 & W2).
    rewrite (H _ _ _ R1 W1). cbn [bind]. eapply IH; eassumption.
Qed.

Lemma uwrite_well a : runs_well (units a) (uwrite dstep a).
Proof.
  induction a using uarg_rect'; intros d d' ns R W.
  - cbn [units unit_ops flat_map map app drun uwrite] in *. destruct (dstep d (BWrite w)) as [[d1 n]| | | |]; cbn [bind] in *; try discriminate.
    destruct (dstep d1 BFlush) as [[d2 n2]| | | |]; cbn [bind] in *; try discriminate. injection R as <- <-.
    inversion W; subst. cbn [whole] in *. subst n. rewrite Z.eqb_refl. reflexivity.
  - cbn [units unit_ops flat_map] in R, W. rewrite app_nil_r in R, W. destruct (drun_split _ _ _ _ _ R W) as (d1 & n1 & n2 & R1 & W1 & R2 & W2).
    cbn [uwrite]. rewrite (urepeat_run _ _ _ _ _ R1). cbn [bind]. cbn [drun] in R2.
    destruct (dstep d1 BFlush) as [[d2 n3]| | | |]; cbn [bind] in *; try discriminate. injection R2 as <- <-. reflexivity.
  - cbn [units unit_ops flat_map map app drun uwrite] in *. destruct (dstep d BFlush) as [[d1 n]| | | |]; cbn [bind] in *; try discriminate.
    destruct (dstep d1 BFlush) as [[d2 n2]| | | |]; cbn [bind] in *; try discriminate. injection R as <- <-. reflexivity.
  - cbn [units] in R, W. rewrite unit_ops_app in R, W. destruct (drun_split _ _ _ _ _ R W) as (d1 & n1 & n2 & R1 & W1 & R2 & W2).
    rewrite uwrite_node. rewrite (uwrites_well l H _ _ _ R1 W1). cbn [bind]. cbn [unit_ops flat_map map app drun] in R2.
    destruct (dstep d1 BFlush) as [[d2 n3]| | | |]; cbn [bind] in *; try discriminate. injection R2 as <- <-. reflexivity.
Qed.
Lemma all_well l : runs_well (flat_map units l) (uwrites dstep l).
Proof. apply uwrites_well. induction l; constructor; auto. apply uwrite_well. Qed.

(** A write that does not take everything is the last call. *)
Fixpoint norep (a : uarg) : bool :=
  match a with URepeat _ _ => false | UNode l => forallb norep l | _ => true end.
Definition stops (us : list (list wop)) (f : D -> outcome (D * bool)) : Prop :=
  forall d d' ok, f d = Ok (d', ok) -> exists pre post ns, unit_ops us = pre ++ post /\ drun d pre = Ok (d', ns) /\
    (if ok : bool then post = [] /\ Forall2 whole pre ns
     else exists pre' w ns' n, pre = pre' ++ [BWrite w] /\ ns = ns' ++ [n] /\ Forall2 whole pre' ns' /\ n <> wop_size w).

Lemma uwrites_stops l : Forall (fun a => stops (units a) (uwrite dstep a)) l -> stops (flat_map units l) (uwrites dstep l).
Proof.
  induction 1 as [|a l H F IH]; intros d d' ok R; cbn [flat_map uwrites] in *.
  - injection R as <- <-. exists [], [], []. repeat split. constructor.
  - destruct (uwrite dstep a d) as [[d1 ok1]| | | |] eqn:E; cbn [bind] in R; try discriminate.
    destruct (H _ _ _ E) as (pre & post & ns & U & Dr & X). rewrite unit_ops_app. destruct ok1.
    + destruct X as [-> W]. rewrite app_nil_r in U. destruct (IH _ _ _ R) as (pre2 & post2 & ns2 & U2 & Dr2 & X2).
      exists (pre ++ pre2), post2, (ns ++ ns2). rewrite U, U2, app_assoc. split; [reflexivity|]. split.
      { rewrite drun_app, Dr. cbn [bind]. rewrite Dr2. reflexivity. }
      destruct ok.
      * destruct X2 as [-> W2]. split; [reflexivity|]. apply Forall2_app; assumption.
      * destruct X2 as (pre' & w & ns' & n & -> & -> & W2 & N). exists (pre ++ pre'), w, (ns ++ ns'), n.
        rewrite !app_assoc. repeat split; auto. apply Forall2_app; assumption.
    + injection R as <- <-. exists pre, (post ++ unit_ops (flat_map units l)), ns. rewrite U, app_assoc. auto.
Qed.

Lemma uwrite_stops a : norep a = true -> stops (units a) (uwrite dstep a).
Proof.
  induction a using uarg_rect'; intros NR d d' ok R; cbn [norep] in NR; try discriminate.
  - cbn [units unit_ops flat_map map app uwrite] in *. destruct (dstep d (BWrite w)) as [[d1 n]| | | |] eqn:E1; cbn [bind] in *; try discriminate.
    destruct (Z.eqb_spec n (wop_size w)) as [->|N].
    + destruct (dstep d1 BFlush) as [[d2 n2]| | | |] eqn:E2; cbn [bind] in *; try discriminate. injection R as <- <-.
      exists [BWrite w; BFlush], [], [wop_size w; n2]. split; [reflexivity|]. split; [cbn [drun]; rewrite E1; cbn [bind]; rewrite E2; reflexivity|].
      split; [reflexivity|]. repeat constructor.
    + injection R as <- <-. exists [BWrite w], [BFlush], [n]. split; [reflexivity|]. split; [cbn [drun]; rewrite E1; reflexivity|].
      exists [], w, [], n. repeat split; auto.
  - cbn [units unit_ops flat_map map app uwrite] in *. destruct (dstep d BFlush) as [[d1 n]| | | |] eqn:E1; cbn [bind] in *; try discriminate.
    destruct (dstep d1 BFlush) as [[d2 n2]| | | |] eqn:E2; cbn [bind] in *; try discriminate. injection R as <- <-.
    exists [BFlush; BFlush], [], [n; n2]. split; [reflexivity|]. split; [cbn [drun]; rewrite E1; cbn [bind]; rewrite E2; reflexivity|].
    split; [reflexivity|]. repeat constructor.
  - rewrite uwrite_node in R. destruct (uwrites dstep l d) as [[d1 ok1]| | | |] eqn:E; cbn [bind] in R; try discriminate.
    assert (F : Forall (fun a => stops (units a) (uwrite dstep a)) l).
    { rewrite forallb_forall in NR. rewrite Forall_forall in *. auto. }
    destruct (uwrites_stops l F _ _ _ E) as (pre & post & ns & U & Dr & X). cbn [units]. rewrite unit_ops_app, U. destruct ok1.
    + destruct X as [-> W]. destruct (dstep d1 BFlush) as [[d2 n2]| | | |] eqn:E2; cbn [bind] in *; try discriminate. injection R as <- <-.
      exists (pre ++ [BFlush]), [], (ns ++ [n2]). rewrite !app_nil_r. split; [reflexivity|]. split.
      { rewrite drun_app, Dr. cbn [bind drun]. rewrite E2. reflexivity. }
      split; [reflexivity|]. apply Forall2_app; [assumption|]. repeat constructor.
    + injection R as <- <-. exists pre, (post ++ unit_ops [[]]), ns. rewrite app_assoc. auto.
Qed.
Lemma all_stop l : forallb norep l = true -> stops (flat_map units l) (uwrites dstep l).
Proof. intros NR. apply uwrites_stops. rewrite Forall_forall. rewrite forallb_forall in NR. intros a I. apply uwrite_stops. auto. Qed.
End Any.

(** ** What the calls are *)
Lemma units_data l : concat (map (fun ws => concat (map wop_data ws)) (flat_map units l)) = flat_map udata l.
Proof.
  set (f := fun ws => concat (map wop_data ws)).
  assert (X : forall l, Forall (fun a => concat (map f (units a)) = udata a) l -> concat (map f (flat_map units l)) = flat_map udata l).
  { induction 1 as [|a k H F IH]; cbn [flat_map]; [reflexivity|]. rewrite map_app, concat_app, H, IH. reflexivity. }
  apply X. clear -X. induction l as [|a l IH]; constructor; auto. clear -X. induction a using uarg_rect'.
  - destruct w; cbn; rewrite ?app_nil_r; reflexivity.
  - cbn [units map concat udata]. rewrite app_nil_r. unfold f. induction n; cbn; congruence.
  - reflexivity.
  - cbn [units udata]. rewrite map_app, concat_app, (X l H). cbn. apply app_nil_r.
Qed.
Lemma units_count l : length (flat_map units l) = list_sum (map unodes l).
Proof.
  assert (X : forall l, Forall (fun a => length (units a) = unodes a) l -> length (flat_map units l) = list_sum (map unodes l)).
  { induction 1 as [|a k H F IH]; cbn [flat_map map list_sum fold_right]; [reflexivity|]. rewrite app_length, H, IH. reflexivity. }
  apply X. clear -X. induction l as [|a l IH]; constructor; auto. clear -X. induction a using uarg_rect'; try reflexivity.
  cbn [units unodes]. rewrite app_length, (X l H). cbn. lia.
Qed.
Lemma b_written_app a b : b_written (a ++ b) = b_written a ++ b_written b.
Proof. unfold b_written. rewrite map_app, concat_app. reflexivity. Qed.
Lemma b_written_writes ws : b_written (map BWrite ws) = concat (map wop_data ws).
Proof. unfold b_written. rewrite map_map. reflexivity. Qed.
Lemma b_written_units us : b_written (unit_ops us) = concat (map (fun ws => concat (map wop_data ws)) us).
Proof.
  induction us as [|ws us IH]; [reflexivity|]. cbn [unit_ops flat_map map concat]. fold (unit_ops us).
  rewrite !b_written_app, b_written_writes, IH. unfold b_written at 1. cbn. rewrite app_nil_r. reflexivity.
Qed.

(** Writes of one unit do not meet the defect of C24. *)
Definition simple (ws : list wop) : Prop := (exists w, ws = [w]) \/ Forall (fun w => exists c, w = WChar c) ws.
Lemma units_simple l : Forall simple (flat_map units l).
Proof.
  assert (X : forall l, Forall (fun a => Forall simple (units a)) l -> Forall simple (flat_map units l)).
  { induction 1; cbn; [constructor|]. apply Forall_app. auto. }
  apply X. clear -X. induction l as [|a l IH]; constructor; auto. clear -X. induction a using uarg_rect'; cbn [units].
  - constructor; [left; eauto|constructor].
  - constructor; [|constructor]. right. induction n; constructor; eauto.
  - constructor; [right; constructor|]. constructor; [right; constructor|constructor].
  - apply Forall_app. split; [apply X, H|]. constructor; [right; constructor|constructor].
Qed.

(** Every block starts after a flush. *)
Definition fresh_spans (os : list bop) : Prop := forall pre xs post, os = pre ++ BWrite (WSpan xs) :: post -> since_flush pre = 0.
Lemma since_flush_app a b : since_flush (a ++ BFlush :: b) = since_flush b.
Proof. unfold since_flush. rewrite fold_left_app. reflexivity. Qed.
Lemma fresh_unit ws : simple ws -> fresh_spans (map BWrite ws).
Proof.
  intros [(w & ->)|F] pre xs post E.
  - destruct pre as [|p [|q pre]]; [reflexivity|discriminate|discriminate].
  - exfalso. assert (I : In (BWrite (WSpan xs)) (map BWrite ws)) by (rewrite E; apply in_or_app; right; left; reflexivity).
    apply in_map_iff in I. destruct I as (w & Ew & I). rewrite Forall_forall in F. destruct (F w I) as (c & ->). discriminate.
Qed.
Lemma fresh_units us : Forall simple us -> fresh_spans (unit_ops us).
Proof.
  induction 1 as [|ws us Sw F IH]; intros pre xs post E; [destruct pre; discriminate|].
  cbn [unit_ops flat_map] in E. fold (unit_ops us) in E. rewrite <- app_assoc in E. cbn [app] in E.
  destruct (Nat.le_gt_cases (length pre) (length (map BWrite ws))) as [L|L].
  - destruct (Nat.eq_dec (length pre) (length (map BWrite ws))) as [Q|Q].
    + exfalso. apply (f_equal (skipn (length pre))) in E. rewrite Q in E at 1. rewrite !skipn_app, !skipn_all, !Nat.sub_diag in E. cbn in E. discriminate.
    + apply (fresh_unit ws Sw pre xs (skipn (S (length pre)) (map BWrite ws))).
      assert (X : firstn (S (length pre)) (map BWrite ws) = pre ++ [BWrite (WSpan xs)]).
      { transitivity (firstn (S (length pre)) (map BWrite ws ++ BFlush :: unit_ops us)).
        - rewrite firstn_app. replace (S (length pre) - length (map BWrite ws))%nat with O by lia. rewrite firstn_O, app_nil_r. reflexivity.
        - rewrite E, firstn_app, (firstn_all2 pre) by lia. replace (S (length pre) - length pre)%nat with 1%nat by lia. reflexivity. }
      rewrite <- (firstn_skipn (S (length pre)) (map BWrite ws)) at 1. rewrite X, <- app_assoc. reflexivity.
  - assert (X : exists pre2, pre = map BWrite ws ++ BFlush :: pre2).
    { clear -E L. revert pre E L. generalize (map BWrite ws) as m. induction m as [|o m IH]; intros [|p pre] E L; cbn in *; try lia.
      - injection E as <- _. eauto.
      - injection E as <- E. destruct (IH pre E) as (pre2 & ->); [lia|]. eauto. }
    destruct X as (pre2 & ->). rewrite since_flush_app. rewrite <- app_assoc in E. apply app_inv_head in E. cbn [app] in E. injection E as E. eapply IH, E.
Qed.
Lemma no_hit n os : fresh_spans os -> ~ boundary_hit n os.
Proof. intros F (pre & xs & post & E & A & _). rewrite (F _ _ _ E) in A. apply A. apply Z.mod_0_l. intros ->. apply A. reflexivity. Qed.
Lemma no_hit_prefix n us pre post : Forall simple us -> unit_ops us = pre ++ post -> ~ boundary_hit n pre.
Proof.
  intros F E. apply no_hit. intros p xs q E2. apply (fresh_units us F p xs (q ++ post)). rewrite E, E2, <- app_assoc. reflexivity.
Qed.

(** ** Buffered *)
Lemma b_step_grows b o b' k : b_step b o = Ok (b', k) -> exists u, b_out b' = b_out b ++ u.
Proof.
  destruct o as [[c|xs]|]; cbn [b_step]; intros H.
  - unfold b_write_char in H. destruct (store_span _ _ _) as [d| | | |]; cbn [bind] in H; try discriminate.
    unfold b_move in H. cbn [b_buf b_pos b_out] in H. destruct (0 <=? b_pos b + 1); cbn [assert_then bind] in H; [|discriminate].
    injection H as <- <-. destruct (_ =? _); cbn [b_overflow b_out]; [eauto|]. exists []. rewrite app_nil_r. reflexivity.
  - unfold b_write in H. destruct (_ <? _).
    + destruct (store_span _ _ _) as [d| | | |]; cbn [bind] in H; try discriminate. injection H as <- <-. exists []. cbn. rewrite app_nil_r. reflexivity.
    + destruct (store_span _ _ _) as [d| | | |]; cbn [bind] in H; try discriminate. cbv zeta in H.
      set (out := if _ <? _ then _ else b_out b ++ d) in H. assert (X : exists u, out = b_out b ++ u).
      { unfold out. destruct (_ <? _); [rewrite <- app_assoc|]; eauto. }
      destruct (0 <? _).
      * destruct (store_span _ _ _) as [d2| | | |]; cbn [bind] in H; try discriminate. injection H as <- <-. exact X.
      * injection H as <- <-. exact X.
  - injection H as <- <-. cbn. eauto.
Qed.
Lemma b_run_grows os : forall b b' ks, b_run b os = Ok (b', ks) -> exists u, b_out b' = b_out b ++ u.
Proof.
  induction os as [|o os IH]; intros b b' ks H; cbn [b_run] in H.
  - injection H as <- <-. exists []. rewrite app_nil_r. reflexivity.
  - destruct (b_step b o) as [[b1 k]| | | |] eqn:E; cbn [bind] in H; try discriminate.
    destruct (b_run b1 os) as [[b2 ks2]| | | |] eqn:E2; cbn [bind] in H; try discriminate. injection H as <- <-.
    destruct (b_step_grows _ _ _ _ E) as (u & U). destruct (IH _ _ _ E2) as (v & V). exists (u ++ v). rewrite V, U, app_assoc. reflexivity.
Qed.
Lemma b_run_app os1 : forall b os2, b_run b (os1 ++ os2) = do (b1, n1) <- b_run b os1; do (b2, n2) <- b_run b1 os2; Ok (b2, n1 ++ n2).
Proof.
  induction os1 as [|o os1 IH]; intros d os2; cbn [app b_run bind].
  - destruct (b_run d os2) as [[d2 n2]| | | |]; reflexivity.
  - destruct (b_step d o) as [[d1 n]| | | |]; cbn [bind]; try reflexivity. rewrite IH.
    destruct (b_run d1 os1) as [[d2 n1]| | | |]; cbn [bind]; try reflexivity. destruct (b_run d2 os2) as [[d3 n2]| | | |]; reflexivity.
Qed.

(** After any of the calls. *)
Lemma b_prefix n us pre post : (0 < n)%nat -> Z.of_nat n < 2 ^ 64 -> Forall simple us -> unit_ops us = pre ++ post ->
  exists b, b_run (b_open n) pre = Ok (b, replies_of pre) /\ bw_ok (Z.of_nat n) b /\ b_out (b_flush b) = b_written pre.
Proof.
  intros H1 H2 F E. destruct (b_open_ok n H1) as [Ok1 _].
  destruct (w_run (Z.of_nat n) ltac:(lia) pre (b_open n) Ok1) as (b & R & Ok2 & _).
  destruct (buffered_writer n pre H1 H2) as (b' & R' & I & _). rewrite R in R'. injection R' as <-.
  exists b. split; [exact R|]. split; [exact Ok2|]. apply I. eapply no_hit_prefix; eassumption.
Qed.

Lemma last_flush (pre : list bop) : exists a c, pre = a ++ map BWrite c /\ (a = [] \/ exists a', a = a' ++ [BFlush]).
Proof.
  induction pre as [|o pre (a & c & -> & X)] using rev_ind; [exists [], []; auto|]. destruct o as [w|].
  - exists a, (c ++ [w]). rewrite map_app, app_assoc. auto.
  - exists ((a ++ map BWrite c) ++ [BFlush]), []. rewrite app_nil_r. split; [reflexivity|]. right. eauto.
Qed.

(** Writes of different units are not together. *)
Lemma tail_simple us : Forall simple us -> forall a c post, unit_ops us = a ++ map BWrite c ++ post -> (a = [] \/ exists a', a = a' ++ [BFlush]) ->
  exists ws r, simple ws /\ ws = c ++ r.
Proof.
  induction 1 as [|ws us Sw F IH]; intros a c post E X.
  - destruct a, c; cbn in E; try discriminate. exists [], []. split; [right; constructor|reflexivity].
  - cbn [unit_ops flat_map] in E. fold (unit_ops us) in E. rewrite <- app_assoc in E. cbn [app] in E. destruct X as [->|(a' & ->)].
    + cbn [app] in E. exists ws. clear -E Sw. assert (Y : exists r, ws = c ++ r); [|destruct Y as (r & Y); exists r; auto].
      clear Sw. revert c E. induction ws as [|w ws IH]; intros [|v c] E; cbn in E; try discriminate; [exists []; reflexivity|exists (w :: ws); reflexivity|].
      injection E as -> E. destruct (IH c E) as (r & ->). exists r. reflexivity.
    + assert (Y : a' = map BWrite ws \/ exists a'', a' = map BWrite ws ++ BFlush :: a'').
      { clear -E. revert a' E. generalize (map BWrite c ++ post) as q.
        assert (G : forall q ws a', map BWrite ws ++ BFlush :: unit_ops us = (a' ++ [BFlush]) ++ q -> a' = map BWrite ws \/ exists a'', a' = map BWrite ws ++ BFlush :: a'').
        { clear. intros q ws. induction ws as [|w ws IH]; intros [|o a'] E; cbn in E; try discriminate; [left; reflexivity| |].
          - injection E as <- E. right. exists a'. reflexivity.
          - injection E as <- E. cbn. destruct (IH a' E) as [->|(a'' & ->)]; [left; reflexivity|right; eauto]. }
        intros q. apply G. }
      destruct Y as [->|(a'' & ->)].
      * rewrite <- app_assoc in E. apply app_inv_head in E. cbn [app] in E. injection E as E. apply (IH [] c post); auto.
      * rewrite <- !app_assoc in E. apply app_inv_head in E. cbn [app] in E. injection E as E.
        apply (IH (a'' ++ [BFlush]) c post); [rewrite E, <- app_assoc; reflexivity|right; eauto].
Qed.

(** ** Without the format *)
Fixpoint pops (a : uarg) : list bop :=
  match a with
  | UOne w => [BWrite w]
  | URepeat c n => map BWrite (repeat (WChar c) n)
  | UFlush => [BFlush]
  | UNode l => flat_map pops l
  end.

Section Plain.
Context {D : Type} (dstep : D -> bop -> outcome (D * Z)).
Lemma pwrite_node l d : pwrite dstep (UNode l) d = pwrites dstep l d.
Proof. reflexivity. Qed.
Definition pwell (os : list bop) (f : D -> outcome (D * bool)) : Prop :=
  forall d d' ns, drun dstep d os = Ok (d', ns) -> Forall2 whole os ns -> f d = Ok (d', true).
Definition pstops (os : list bop) (f : D -> outcome (D * bool)) : Prop :=
  forall d d' ok, f d = Ok (d', ok) -> exists pre post ns, os = pre ++ post /\ drun dstep d pre = Ok (d', ns) /\
    (if ok : bool then post = [] /\ Forall2 whole pre ns
     else exists pre' w ns' n, pre = pre' ++ [BWrite w] /\ ns = ns' ++ [n] /\ Forall2 whole pre' ns' /\ n <> wop_size w).

Lemma pwrites_well l : Forall (fun a => pwell (pops a) (pwrite dstep a)) l -> pwell (flat_map pops l) (pwrites dstep l).
Proof.
  induction 1 as [|a l H F IH]; intros d d' ns R W; cbn [flat_map pwrites] in *.
  - cbn in R. injection R as <- <-. reflexivity.
  - destruct (drun_split dstep _ _ _ _ _ R W) as (d1 & n1 & n2 & R1 & W1 & R2 & W2).
    rewrite (H _ _ _ R1 W1). cbn [bind]. eapply IH; eassumption.
Qed.
Lemma pwrite_well a : pwell (pops a) (pwrite dstep a).
Proof.
  induction a using uarg_rect'; intros d d' ns R W.
  - cbn [pops drun pwrite] in *. destruct (dstep d (BWrite w)) as [[d1 n]| | | |]; cbn [bind] in *; try discriminate.
    injection R as <- <-. inversion W; subst. cbn [whole] in *. subst n. rewrite Z.eqb_refl. reflexivity.
  - cbn [pops] in R, W. cbn [pwrite]. rewrite (urepeat_run dstep _ _ _ _ _ R). reflexivity.
  - cbn [pops drun pwrite] in *. destruct (dstep d BFlush) as [[d1 n]| | | |]; cbn [bind] in *; try discriminate. injection R as <- <-. reflexivity.
  - rewrite pwrite_node. exact (pwrites_well l H d d' ns R W).
Qed.
Lemma pall_well l : pwell (flat_map pops l) (pwrites dstep l).
Proof. apply pwrites_well. induction l; constructor; auto. apply pwrite_well. Qed.

Lemma pwrites_stops l : Forall (fun a => pstops (pops a) (pwrite dstep a)) l -> pstops (flat_map pops l) (pwrites dstep l).
Proof.
  induction 1 as [|a l H F IH]; intros d d' ok R; cbn [flat_map pwrites] in *.
  - injection R as <- <-. exists [], [], []. repeat split. constructor.
  - destruct (pwrite dstep a d) as [[d1 ok1]| | | |] eqn:E; cbn [bind] in R; try discriminate.
    destruct (H _ _ _ E) as (pre & post & ns & U & Dr & X). destruct ok1.
    + destruct X as [-> W]. rewrite app_nil_r in U. destruct (IH _ _ _ R) as (pre2 & post2 & ns2 & U2 & Dr2 & X2).
      exists (pre ++ pre2), post2, (ns ++ ns2). rewrite U, U2, app_assoc. split; [reflexivity|]. split.
      { rewrite drun_app, Dr. cbn [bind]. rewrite Dr2. reflexivity. }
      destruct ok.
      * destruct X2 as [-> W2]. split; [reflexivity|]. apply Forall2_app; assumption.
      * destruct X2 as (pre' & w & ns' & n & -> & -> & W2 & N). exists (pre ++ pre'), w, (ns ++ ns'), n.
        rewrite !app_assoc. repeat split; auto. apply Forall2_app; assumption.
    + injection R as <- <-. exists pre, (post ++ flat_map pops l), ns. rewrite U, app_assoc. auto.
Qed.
Lemma pwrite_stops a : norep a = true -> pstops (pops a) (pwrite dstep a).
Proof.
  induction a using uarg_rect'; intros NR d d' ok R; cbn [norep] in NR; try discriminate.
  - cbn [pops pwrite] in *. destruct (dstep d (BWrite w)) as [[d1 n]| | | |] eqn:E1; cbn [bind] in *; try discriminate. injection R as <- <-.
    exists [BWrite w], [], [n]. split; [reflexivity|]. split; [cbn [drun]; rewrite E1; reflexivity|].
    destruct (Z.eqb_spec n (wop_size w)) as [->|N]; [split; [reflexivity|]; repeat constructor|]. exists [], w, [], n. repeat split; auto.
  - cbn [pops pwrite] in *. destruct (dstep d BFlush) as [[d1 n]| | | |] eqn:E1; cbn [bind] in *; try discriminate. injection R as <- <-.
    exists [BFlush], [], [n]. split; [reflexivity|]. split; [cbn [drun]; rewrite E1; reflexivity|]. split; [reflexivity|]. repeat constructor.
  - rewrite pwrite_node in R. cbn [pops]. revert d d' ok R. apply pwrites_stops. rewrite forallb_forall in NR. rewrite Forall_forall in *. auto.
Qed.
Lemma pall_stop l : forallb norep l = true -> pstops (flat_map pops l) (pwrites dstep l).
Proof. intros NR. apply pwrites_stops. rewrite Forall_forall. rewrite forallb_forall in NR. intros a I. apply pwrite_stops. auto. Qed.
End Plain.

(** Flushes that are asked for. *)
Fixpoint uflushes (a : uarg) : nat :=
  match a with UFlush => 1 | UNode l => list_sum (map uflushes l) | _ => 0 end.
