(** Proofs about operations that an exception interrupts. *)
From Coq Require Import ZArith List Bool Arith Lia Permutation.
From Verif Require Import Outcome IntTypes ListLemmas MapModel ExcModel.
From Verif Require ContainerModel.
From Verif Require Import AdjModel.
Import ListNotations.

(** ** Specification of a queue: what is left is served in a certain order *)
(* Looking at and removing the first element, as often as there are elements, nothing throws. *)
Definition serves {A} (q : queue2 A) (l : list A) : Prop :=
  erun [] q (flat_map (fun _ => [Top; Pop]) l)
  = Ok (ContainerModel.Build_queue2 [] [], flat_map (fun x => [Seen x; Popped]) l).

Definition waiting {A} (q : queue2 A) : list A := ContainerModel.m_out q ++ rev (ContainerModel.m_in q).

Lemma epour_done : forall A (ins outs : list A), epour [] ins outs = (ContainerModel.Build_queue2 [] (rev ins ++ outs), [], Some tt).
Proof. induction ins as [|x ins IH]; intros; cbn; [reflexivity|]. rewrite IH, <- app_assoc. reflexivity. Qed.

Lemma efill_done : forall A (q : queue2 A), exists q', efill [] q = (q', [], Some tt) /\ waiting q' = waiting q /\
  (waiting q <> [] -> ContainerModel.m_out q' <> []).
Proof.
  intros A [i o]. unfold efill, waiting. cbn [ContainerModel.m_in ContainerModel.m_out]. destruct o as [|x o].
  - rewrite epour_done. eexists. split; [reflexivity|]. cbn. rewrite !app_nil_r. split; auto.
  - eexists. split; [reflexivity|]. cbn. split; [reflexivity|]. intros; discriminate.
Qed.

(* One element. *)
Lemma serve_one : forall A (q : queue2 A) x l, waiting q = x :: l -> exists q', etop [] q = Ok (q', [], Some x) /\ exists q2,
  epop [] q' = Ok (q2, [], Some tt) /\ waiting q2 = l.
Proof.
  intros A q x l H. destruct (efill_done A q) as (q' & E & W & N).
  assert (N1 : ContainerModel.m_out q' <> []) by (apply N; rewrite H; discriminate).
  unfold etop. rewrite E. destruct q' as [i o]. cbn [ContainerModel.m_out] in *. destruct o as [|y o]; [congruence|].
  rewrite H in W. unfold waiting in W. cbn in W. injection W as -> W.
  eexists. split; [reflexivity|]. unfold epop, efill. cbn [ContainerModel.m_out]. eexists. split; [reflexivity|]. unfold waiting. cbn. exact W.
Qed.

Lemma waiting_nil : forall A (q : queue2 A), waiting q = [] -> q = ContainerModel.Build_queue2 [] [].
Proof.
  intros A [i o] H. unfold waiting in H. cbn in H. apply app_eq_nil in H. destruct H as [-> H].
  apply (f_equal (@rev A)) in H. rewrite rev_involutive in H. cbn in H. subst. reflexivity.
Qed.

Lemma waiting_serves : forall A l (q : queue2 A), waiting q = l -> serves q l.
Proof.
  induction l as [|x l IH]; intros q H; unfold serves.
  - rewrite (waiting_nil _ _ H). reflexivity.
  - destruct (serve_one _ _ _ _ H) as (q1 & E1 & q2 & E2 & W). specialize (IH _ W). unfold serves in IH.
    cbn [flat_map app erun]. rewrite E1. cbn. rewrite E2. cbn. rewrite IH. reflexivity.
Qed.

Lemma serves_waiting : forall A l (q : queue2 A), serves q l -> waiting q = l.
Proof.
  induction l as [|x l IH]; intros q H; unfold serves in H.
  - cbn in H. injection H as ->. reflexivity.
  - destruct (waiting q) as [|y w] eqn:W.
    + rewrite (waiting_nil _ _ W) in H. cbn in H. discriminate.
    + destruct (serve_one _ _ _ _ W) as (q1 & E1 & q2 & E2 & W2). cbn [flat_map app erun] in H. rewrite E1 in H. cbn in H.
      rewrite E2 in H. cbn in H. destruct (erun [] q2 (flat_map (fun _ : A => [Top; Pop]) l)) as [[q3 rs]| | | |] eqn:E; cbn in H; try discriminate.
      injection H as -> -> ->. f_equal. rewrite <- W2. apply IH. exact E.
Qed.

Lemma serves_iff : forall A l (q : queue2 A), serves q l <-> waiting q = l.
Proof. split; [apply serves_waiting | apply waiting_serves]. Qed.

(* Pouring with exceptions. *)
Lemma epour_spec : forall A (ins outs : list A) sch q' sch' r, epour sch ins outs = (q', sch', r) ->
  match r with
  | Some _ => waiting q' = rev ins ++ outs /\ ContainerModel.m_in q' = []
  | None => exists a b, ins = a ++ b /\ b <> [] /\ waiting q' = (rev a ++ outs) ++ rev b
  end.
Proof.
  induction ins as [|x ins IH]; intros outs sch q' sch' r H; cbn in H.
  - injection H as <- <- <-. unfold waiting. cbn. rewrite app_nil_r. auto.
  - destruct (throws sch).
    + injection H as <- <- <-. exists [], (x :: ins). unfold waiting. cbn. repeat split; auto; discriminate.
    + apply IH in H. destruct r as [u|].
      * destruct H as [H1 H2]. split; [|exact H2]. rewrite H1. cbn. rewrite <- app_assoc. reflexivity.
      * destruct H as (a & b & -> & Hb & H). exists (x :: a), b. cbn. repeat split; auto. rewrite H. rewrite <- (app_assoc (rev a) [x]). reflexivity.
Qed.

Lemma efill_spec : forall A (q : queue2 A) sch q' sch' r, efill sch q = (q', sch', r) ->
  match r with
  | Some _ => waiting q' = waiting q
  | None => exists l1 l2, l1 <> [] /\ waiting q = l1 ++ l2 /\ waiting q' = l2 ++ l1
  end.
Proof.
  intros A [i o] sch q' sch' r H. unfold efill in H. cbn [ContainerModel.m_in ContainerModel.m_out] in H. destruct o as [|x o].
  - apply epour_spec in H. change (waiting (ContainerModel.Build_queue2 i [])) with (rev i). destruct r as [u|].
    + destruct H as [-> _]. apply app_nil_r.
    + destruct H as (a & b & -> & Hb & ->). exists (rev b), (rev a). rewrite rev_app_distr, app_nil_r. repeat split; auto.
      intros E. apply Hb. apply (f_equal (@rev A)) in E. rewrite rev_involutive in E. exact E.
  - injection H as <- <- <-. reflexivity.
Qed.

Lemma efill_ready : forall A (q : queue2 A) sch q' sch' u, efill sch q = (q', sch', Some u) -> ContainerModel.m_out q' = [] -> waiting q = [].
Proof.
  intros A [i o] sch q' sch' u H O. pose proof (efill_spec _ _ _ _ _ _ H) as W. cbv beta iota in W. rewrite <- W. clear W. unfold efill in H.
  cbn [ContainerModel.m_in ContainerModel.m_out] in H. destruct o as [|x o].
  - apply epour_spec in H. destruct H as [_ H]. unfold waiting. rewrite O, H. reflexivity.
  - injection H as <- <- <-. discriminate.
Qed.

Lemma efill_first : forall A (q : queue2 A) sch q' sch', throws sch = true -> efill sch q = (q', sch', None) -> q' = q.
Proof.
  intros A [i o] sch q' sch' T H. unfold efill in H. cbn in H. destruct o; [|discriminate].
  destruct i; cbn in H; [discriminate|]. rewrite T in H. injection H as <- <-. reflexivity.
Qed.

Lemma etop_spec : forall A (q : queue2 A) sch q' sch' r, etop sch q = Ok (q', sch', r) ->
  match r with
  | Some x => waiting q' = waiting q /\ exists l, waiting q = x :: l
  | None => exists l1 l2, l1 <> [] /\ waiting q = l1 ++ l2 /\ waiting q' = l2 ++ l1
  end.
Proof.
  intros A q sch q' sch' r H. unfold etop in H. destruct (efill sch q) as [[q1 s1] r1] eqn:E. apply efill_spec in E. destruct r1 as [u|].
  - destruct (ContainerModel.m_out q1) as [|x o] eqn:O; [discriminate|]. injection H as <- <- <-. split; [exact E|].
    rewrite <- E. unfold waiting. rewrite O. cbn. eauto.
  - injection H as <- <- <-. exact E.
Qed.

Lemma epop_spec : forall A (q : queue2 A) sch q' sch' r, epop sch q = Ok (q', sch', r) ->
  match r with
  | Some _ => exists x, waiting q = x :: waiting q'
  | None => exists l1 l2, l1 <> [] /\ waiting q = l1 ++ l2 /\ waiting q' = l2 ++ l1
  end.
Proof.
  intros A q sch q' sch' r H. unfold epop in H. destruct (efill sch q) as [[q1 s1] r1] eqn:E. apply efill_spec in E. destruct r1 as [u|].
  - destruct (ContainerModel.m_out q1) as [|x o] eqn:O; [discriminate|]. injection H as <- <- <-. exists x.
    rewrite <- E. unfold waiting. rewrite O. reflexivity.
  - injection H as <- <- <-. exact E.
Qed.

Lemma epush_spec : forall A (q : queue2 A) x sch q' sch' r, epush sch q x = (q', sch', r) ->
  match r with Some _ => waiting q' = waiting q ++ [x] | None => q' = q end.
Proof.
  intros A [i o] x sch q' sch' r H. unfold epush in H. destruct (throws sch); injection H as <- <- <-; [reflexivity|].
  unfold waiting. cbn. apply app_assoc.
Qed.

(** ** Specification of histories *)
(* What was pushed, and how often an element was removed. *)
Definition pushed {A} (rs : list (qreply A)) : list A := flat_map (fun r => match r with Pushed x => [x] | _ => [] end) rs.
Definition removals {A} (rs : list (qreply A)) : nat := length (filter (fun r => match r with Popped => true | _ => false end) rs).
(* A queue that holds [l] first, [l'] last; exceptions have no effect. *)
Fixpoint fifo {A} (l : list A) (rs : list (qreply A)) (l' : list A) : Prop :=
  match rs with
  | [] => l' = l
  | Pushed x :: rs => fifo (l ++ [x]) rs l'
  | Seen x :: rs => (exists t, l = x :: t) /\ fifo l rs l'
  | Popped :: rs => match l with [] => False | _ :: t => fifo t rs l' end
  | Threw :: rs => fifo l rs l'
  end.

Lemma erun_cons : forall A sch (q : queue2 A) c calls q' rs, erun sch q (c :: calls) = Ok (q', rs) ->
  exists q1 s1 r rs1, rs = r :: rs1 /\ erun s1 q1 calls = Ok (q', rs1) /\
   match c with
   | Push x => exists o, epush sch q x = (q1, s1, o) /\ r = match o with Some _ => Pushed x | None => Threw end
   | Top => exists o, etop sch q = Ok (q1, s1, o) /\ r = match o with Some x => Seen x | None => Threw end
   | Pop => exists o, epop sch q = Ok (q1, s1, o) /\ r = match o with Some _ => Popped | None => Threw end
   end.
Proof.
  intros A sch q c calls q' rs H. cbn [erun] in H. destruct c as [x| |].
  - destruct (epush sch q x) as [[q1 s1] o] eqn:E. cbn in H. destruct (erun s1 q1 calls) as [[q2 rs2]| | | |] eqn:R; cbn in H; try discriminate.
    injection H as <- <-. exists q1, s1, (match o with Some _ => Pushed x | None => Threw end), rs2. eauto.
  - destruct (etop sch q) as [[[q1 s1] o]| | | |] eqn:E; cbn in H; try discriminate.
    destruct (erun s1 q1 calls) as [[q2 rs2]| | | |] eqn:R; cbn in H; try discriminate.
    injection H as <- <-. exists q1, s1, (match o with Some x => Seen x | None => Threw end), rs2. eauto.
  - destruct (epop sch q) as [[[q1 s1] o]| | | |] eqn:E; cbn in H; try discriminate.
    destruct (erun s1 q1 calls) as [[q2 rs2]| | | |] eqn:R; cbn in H; try discriminate.
    injection H as <- <-. exists q1, s1, (match o with Some _ => Popped | None => Threw end), rs2. eauto.
Qed.

Lemma rotated : forall A (w w' l1 l2 : list A), w = l1 ++ l2 -> w' = l2 ++ l1 -> Permutation w w'.
Proof. intros; subst. apply Permutation_app_comm. Qed.

Lemma erun_kept : forall A calls sch (q : queue2 A) q' rs, erun sch q calls = Ok (q', rs) ->
  exists gone, length gone = removals rs /\ Permutation (waiting q ++ pushed rs) (gone ++ waiting q').
Proof.
  induction calls as [|c calls IH]; intros sch q q' rs H.
  - cbn in H. injection H as <- <-. exists []. cbn. rewrite app_nil_r. auto.
  - apply erun_cons in H. destruct H as (q1 & s1 & r & rs1 & -> & R & H). destruct (IH _ _ _ _ R) as (gone & L & P).
    destruct c as [x| |].
    + destruct H as (o & E & ->). apply epush_spec in E. destruct o as [u|]; cbn [pushed removals flat_map filter app length].
      * exists gone. split; [exact L|]. rewrite <- P, E, <- app_assoc. reflexivity.
      * subst q1. exists gone. auto.
    + destruct H as (o & E & ->). apply etop_spec in E. destruct o as [x|]; cbn [pushed removals flat_map filter app length].
      * destruct E as [E _]. exists gone. rewrite <- E. auto.
      * destruct E as (l1 & l2 & _ & E1 & E2). exists gone. split; [exact L|]. rewrite <- P. apply Permutation_app_tail. eapply rotated; eauto.
    + destruct H as (o & E & ->). apply epop_spec in E. destruct o as [x|].
      * destruct E as (x1 & E). exists (x1 :: gone). split; [cbn; f_equal; exact L|]. rewrite E. cbn. constructor. exact P.
      * destruct E as (l1 & l2 & _ & E1 & E2). exists gone. split; [exact L|]. cbn [pushed flat_map app]. fold (pushed rs1). rewrite <- P. apply Permutation_app_tail. eapply rotated; eauto.
Qed.

Lemma erun_fifo : forall A calls sch (q : queue2 A) q' rs, erun sch q calls = Ok (q', rs) ->
  Forall2 (fun c r => r = Threw -> exists x, c = Push x) calls rs -> fifo (waiting q) rs (waiting q').
Proof.
  induction calls as [|c calls IH]; intros sch q q' rs H F.
  - cbn in H. injection H as <- <-. reflexivity.
  - apply erun_cons in H. destruct H as (q1 & s1 & r & rs1 & -> & R & H). inversion F; subst. specialize (IH _ _ _ _ R H5).
    destruct c as [x| |].
    + destruct H as (o & E & ->). apply epush_spec in E. destruct o as [u|]; cbn [fifo].
      * rewrite <- E. exact IH.
      * subst q1. exact IH.
    + destruct H as (o & E & ->). apply etop_spec in E. destruct o as [x|]; [|destruct (H3 eq_refl); discriminate]. cbn [fifo].
      destruct E as [E1 E2]. split; [exact E2|]. rewrite <- E1. exact IH.
    + destruct H as (o & E & ->). apply epop_spec in E. destruct o as [x|]; [|destruct (H3 eq_refl); discriminate]. cbn [fifo].
      destruct E as (x1 & ->). exact IH.
Qed.

(* The middle of pouring. *)
Lemma epour_middle : forall A (a b outs : list A), b <> [] ->
  epour (repeat false (length a) ++ [true]) (a ++ b) outs = (ContainerModel.Build_queue2 b (rev a ++ outs), [], None).
Proof.
  induction a as [|x a IH]; intros b outs Hb; cbn.
  - destruct b; [congruence|]. reflexivity.
  - rewrite IH by exact Hb. rewrite <- app_assoc. reflexivity.
Qed.

(** ** array_as_vector *)
Lemma list_set_firstn : forall A (l : list A) n x, n < length l -> firstn (S n) (list_set l n x) = firstn n l ++ [x].
Proof. induction l as [|y l IH]; intros [|n] x H; cbn in *; try lia; [reflexivity|]. f_equal. apply IH. lia. Qed.
Lemma list_set_firstn_same : forall A (l : list A) n x, firstn n (list_set l n x) = firstn n l.
Proof. induction l as [|y l IH]; intros [|n] x; cbn in *; try reflexivity. f_equal. apply IH. Qed.

(** ** accounting_map *)
Lemma NoDup_front : forall A (a b : list A), NoDup (a ++ b) -> NoDup a.
Proof.
  induction a as [|x a IH]; intros b H; [constructor|]. cbn in H. inversion H; subst. constructor; [|eapply IH; eassumption].
  intros X. apply H2. apply in_or_app. auto.
Qed.

Section Acc.
  Context {K : Type}.
  Variable keq : K -> K -> bool.
  Hypothesis keq_spec : forall a b, keq a b = true <-> a = b.
  Variable vt : ity.

  Definition gets (m : acc_map (K := K)) (ks : list K) : acc_map (K := K) := fold_left (fun m k => fst (acc_get keq vt m k)) ks m.

  Lemma a_find_none : forall V (m : list (K * V)) k, ~ In k (map fst m) -> a_find keq m k = None.
  Proof.
    induction m as [|[k' v] m IH]; intros k H; cbn in *; [reflexivity|].
    destruct (keq k' k) eqn:E; [apply keq_spec in E; subst; exfalso; apply H; auto|]. apply IH. intros X. apply H. auto.
  Qed.

  Lemma a_find_app_r : forall V (m : list (K * V)) k v, ~ In k (map fst m) -> a_find keq (m ++ [(k, v)]) k = Some v.
  Proof.
    induction m as [|[k' v'] m IH]; intros k v H; cbn in *.
    - destruct (keq k k) eqn:E; [reflexivity|]. assert (X : keq k k = true) by (apply keq_spec; reflexivity). congruence.
    - destruct (keq k' k) eqn:E; [apply keq_spec in E; subst; exfalso; apply H; auto|]. apply IH. auto.
  Qed.

  (* Keys in order; numbered. *)
  Fixpoint numbered (i : nat) (ks : list K) : list (K * Z) :=
    match ks with [] => [] | k :: ks => (k, wrap vt (Z.of_nat i)) :: numbered (S i) ks end.
  Lemma numbered_app : forall a b i, numbered i (a ++ b) = numbered i a ++ numbered (i + length a) b.
  Proof. induction a as [|x a IH]; intros b i; cbn; [f_equal; lia|]. rewrite IH. do 3 f_equal. lia. Qed.
  Lemma numbered_keys : forall a i, map fst (numbered i a) = a.
  Proof. induction a as [|x a IH]; intros; cbn; [reflexivity|]. now rewrite IH. Qed.
  Lemma numbered_length : forall a i, length (numbered i a) = length a.
  Proof. induction a as [|x a IH]; intros; cbn; [reflexivity|]. now rewrite IH. Qed.

  Lemma acc_get_new : forall ks inv k, ~ In k ks ->
    acc_get keq vt {| acc_range := numbered 0 ks; acc_inverse := inv |} k
    = ({| acc_range := numbered 0 (ks ++ [k]); acc_inverse := inv ++ [k] |}, wrap vt (Z.of_nat (length ks))).
  Proof.
    intros ks inv k H. unfold acc_get, a_insert. cbn [acc_range acc_inverse].
    rewrite a_find_none by (rewrite numbered_keys; exact H). rewrite a_find_app_r by (rewrite numbered_keys; exact H).
    rewrite numbered_app, numbered_length. reflexivity.
  Qed.

  Lemma gets_new : forall ls ks inv, NoDup (ks ++ ls) ->
    gets {| acc_range := numbered 0 ks; acc_inverse := inv |} ls
    = {| acc_range := numbered 0 (ks ++ ls); acc_inverse := inv ++ ls |}.
  Proof.
    induction ls as [|k ls IH]; intros ks inv H; unfold gets.
    - cbn. now rewrite !app_nil_r.
    - cbn [fold_left]. rewrite acc_get_new.
      + cbn [fst]. change (k :: ls) with ([k] ++ ls). rewrite !app_assoc. apply IH. rewrite <- app_assoc. exact H.
      + apply NoDup_remove_2 in H. intros X. apply H. apply in_or_app. auto.
  Qed.

  Lemma a_find_numbered : forall ks i j k, NoDup ks -> nth_error ks j = Some k -> a_find keq (numbered i ks) k = Some (wrap vt (Z.of_nat (i + j))).
  Proof.
    induction ks as [|x ks IH]; intros i [|j] k N H; cbn in *; try discriminate.
    - injection H as ->. assert (X : keq k k = true) by (apply keq_spec; reflexivity). rewrite X. do 3 f_equal. lia.
    - inversion N; subst. destruct (keq x k) eqn:E.
      + apply keq_spec in E. subst. apply nth_error_In in H. contradiction.
      + rewrite (IH (S i) j k) by assumption. do 3 f_equal. lia.
  Qed.

  Lemma acc_get_old : forall ks inv j k, NoDup ks -> nth_error ks j = Some k ->
    acc_get keq vt {| acc_range := numbered 0 ks; acc_inverse := inv |} k
    = ({| acc_range := numbered 0 ks; acc_inverse := inv |}, wrap vt (Z.of_nat j)).
  Proof.
    intros ks inv j k N H. unfold acc_get, a_insert. cbn [acc_range acc_inverse]. rewrite (a_find_numbered ks 0 j k N H). cbn.
    rewrite (a_find_numbered ks 0 j k N H). reflexivity.
  Qed.

  Lemma eget_broken : forall ks inv k, ~ In k ks ->
    eget keq vt true [false; true] {| acc_range := numbered 0 ks; acc_inverse := inv |} k
    = ({| acc_range := numbered 0 (ks ++ [k]); acc_inverse := inv |}, [], None).
  Proof.
    intros ks inv k H. unfold eget, a_insert. cbn [throws next tl acc_range acc_inverse].
    rewrite a_find_none by (rewrite numbered_keys; exact H). cbn. rewrite numbered_app, numbered_length. reflexivity.
  Qed.
End Acc.
