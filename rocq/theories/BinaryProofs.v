(** Proofs about the binary format: BinaryModel.v. *)
From Coq Require Import ZArith List Bool Lia Sorted.
From Verif Require Import BinaryModel.
Import ListNotations.
Local Open Scope Z_scope.

(** ** Induction over types *)
Section Induction.
  Variable P : ty -> Prop.
  Hypothesis Hint : forall n sg, P (TInt n sg).
  Hypothesis Hbytes : forall n, P (TBytes n).
  Hypothesis Htuple : forall l, Forall P l -> P (TTuple l).
  Hypothesis Hvec : forall t, P t -> P (TVec t).
  Hypothesis Hlist : forall t, P t -> P (TList t).
  Hypothesis Hset : forall t, P t -> P (TSet t).
  Hypothesis Hmap : forall k v, P k -> P v -> P (TMap k v).
  Fixpoint ty_induction (t : ty) : P t :=
    match t with
    | TInt n sg => Hint n sg
    | TBytes n => Hbytes n
    | TTuple l => Htuple l ((fix go l : Forall P l :=
                               match l with
                               | [] => Forall_nil P
                               | t :: l => Forall_cons t (ty_induction t) (go l)
                               end) l)
    | TVec t => Hvec t (ty_induction t)
    | TList t => Hlist t (ty_induction t)
    | TSet t => Hset t (ty_induction t)
    | TMap k v => Hmap k v (ty_induction k) (ty_induction v)
    end.
End Induction.

(** ** The values of a type *)
Definition is_byte (b : Z) : Prop := 0 <= b < 256.

(** Strictly increasing for a comparator. *)
Definition increasing {A} (lt : A -> A -> bool) (l : list A) : Prop :=
  ForallOrdPairs (fun x y => lt x y = true) l.

Fixpoint has_ty (lt : value -> value -> bool) (t : ty) (v : value) {struct t} : Prop :=
  match t, v with
  | TInt n sg, VInt x =>
      (0 < n)%nat /\
      if sg then - 2 ^ (8 * Z.of_nat n - 1) <= x < 2 ^ (8 * Z.of_nat n - 1)
      else 0 <= x < 2 ^ (8 * Z.of_nat n)
  | TBytes n, VBytes s => length s = n /\ Forall is_byte s
  | TTuple ts, VNode vs =>
      (fix go (ts : list ty) (vs : list value) {struct ts} : Prop :=
         match ts, vs with
         | [], [] => True
         | t :: ts, v :: vs => has_ty lt t v /\ go ts vs
         | _, _ => False
         end) ts vs
  | TVec t, VNode vs | TList t, VNode vs =>
      Z.of_nat (length vs) < 2 ^ 64 /\ Forall (has_ty lt t) vs
  | TSet t, VNode vs =>
      Z.of_nat (length vs) < 2 ^ 64 /\ Forall (has_ty lt t) vs /\ increasing lt vs
  | TMap tk tv, VMap l =>
      Z.of_nat (length l) < 2 ^ 64
      /\ Forall (fun p => has_ty lt tk (fst p) /\ has_ty lt tv (snd p)) l
      /\ increasing (fun p q => lt (fst p) (fst q)) l
  | _, _ => False
  end.

Lemma has_ty_tuple lt ts vs : has_ty lt (TTuple ts) (VNode vs) <-> Forall2 (has_ty lt) ts vs.
Proof.
  revert vs; induction ts as [|t ts IH]; intros [|v vs]; cbn.
  - split; auto.
  - split; [tauto | intro H; inversion H].
  - split; [tauto | intro H; inversion H].
  - specialize (IH vs); cbn in IH. rewrite IH. split.
    + intros []; now constructor.
    + intro H; inversion H; auto.
Qed.

(** What an object must have for reading into it: the right number of components. *)
Fixpoint shaped (t : ty) (w : value) {struct t} : Prop :=
  match t, w with
  | TTuple ts, VNode vs =>
      (fix go (ts : list ty) (vs : list value) {struct ts} : Prop :=
         match ts, vs with
         | [], [] => True
         | t :: ts, v :: vs => shaped t v /\ go ts vs
         | _, _ => False
         end) ts vs
  | TTuple _, _ => False
  | TVec t, VNode vs => Forall (shaped t) vs
  | _, _ => True
  end.

Lemma shaped_tuple ts vs : shaped (TTuple ts) (VNode vs) <-> Forall2 shaped ts vs.
Proof.
  revert vs; induction ts as [|t ts IH]; intros [|v vs]; cbn.
  - split; auto.
  - split; [tauto | intro H; inversion H].
  - split; [tauto | intro H; inversion H].
  - specialize (IH vs); cbn in IH. rewrite IH. split.
    + intros []; now constructor.
    + intro H; inversion H; auto.
Qed.

Lemma has_ty_shaped lt t : forall v, has_ty lt t v -> shaped t v.
Proof.
  induction t as [n sg|n|ts IH|t IH|t IH|t IH|k v IHk IHv] using ty_induction; intros w Hw; try exact I.
  - destruct w as [| |vs|]; try easy.
    apply shaped_tuple. apply has_ty_tuple in Hw.
    induction Hw as [|t v ts vs H1 H2 IHw]; constructor; inversion IH; auto.
  - destruct w as [| |vs|]; try easy. cbn in *. destruct Hw as [_ Hw].
    eapply Forall_impl; [|exact Hw]; auto.
Qed.

Lemma default_shaped t : shaped t (default t).
Proof.
  induction t as [n sg|n|ts IH|t IH|t IH|t IH|k v IHk IHv] using ty_induction; try exact I.
  - apply shaped_tuple. induction IH; constructor; auto.
  - cbn. constructor.
Qed.

(** ** Integers *)
Lemma le_bytes_length n : forall x, length (le_bytes n x) = n.
Proof. induction n; cbn; intros; auto. Qed.

Lemma le_bytes_byte n : forall x, Forall is_byte (le_bytes n x).
Proof. induction n; cbn; constructor; auto. red. apply Z.mod_pos_bound; lia. Qed.

Lemma pow8 n : 2 ^ (8 * Z.of_nat (S n)) = 256 * 2 ^ (8 * Z.of_nat n).
Proof.
  replace (8 * Z.of_nat (S n)) with (8 + 8 * Z.of_nat n) by lia.
  rewrite Z.pow_add_r by lia. reflexivity.
Qed.

Lemma le_value_bytes n : forall x, le_value (le_bytes n x) = x mod 2 ^ (8 * Z.of_nat n).
Proof.
  induction n as [|n IH]; intro x.
  - cbn. now rewrite Z.mod_1_r.
  - cbn [le_bytes le_value]. rewrite IH, pow8, Z.rem_mul_r by (try lia; apply Z.pow_pos_nonneg; lia).
    reflexivity.
Qed.

Lemma le_value_bound l : Forall is_byte l -> 0 <= le_value l < 2 ^ (8 * Z.of_nat (length l)).
Proof.
  induction 1 as [|b l Hb Hl IH]; [cbn; lia|].
  cbn [length le_value]. rewrite pow8. unfold is_byte in Hb. nia.
Qed.

Lemma le_bytes_value l : Forall is_byte l -> le_bytes (length l) (le_value l) = l.
Proof.
  induction 1 as [|b l Hb Hl IH]; [reflexivity|].
  cbn [length le_value le_bytes]. unfold is_byte in Hb.
  replace ((b + 256 * le_value l) mod 256) with b.
  2:{ rewrite Z.mul_comm, Z.mod_add by lia. rewrite Z.mod_small; lia. }
  replace ((b + 256 * le_value l) / 256) with (le_value l).
  2:{ rewrite Z.mul_comm, Z.div_add by lia. rewrite Z.div_small by lia. lia. }
  now rewrite IH.
Qed.

Lemma int_bytes_length big n x : length (int_bytes big n x) = n.
Proof. unfold int_bytes; destruct big; rewrite ?rev_length; apply le_bytes_length. Qed.

Lemma int_value_bytes big n (sg : bool) x :
  (0 < n)%nat ->
  (if sg then - 2 ^ (8 * Z.of_nat n - 1) <= x < 2 ^ (8 * Z.of_nat n - 1) else 0 <= x < 2 ^ (8 * Z.of_nat n)) ->
  int_value big n sg (int_bytes big n x) = x.
Proof.
  intros Hn Hx. unfold int_value, int_bytes.
  replace (if big then rev (if big then rev (le_bytes n x) else le_bytes n x)
           else if big then rev (le_bytes n x) else le_bytes n x) with (le_bytes n x)
    by (destruct big; rewrite ?rev_involutive; reflexivity).
  rewrite le_value_bytes.
  assert (E : 2 ^ (8 * Z.of_nat n) = 2 * 2 ^ (8 * Z.of_nat n - 1)).
  { rewrite <- (Z.pow_succ_r 2) by lia. f_equal. lia. }
  assert (P : 0 < 2 ^ (8 * Z.of_nat n - 1)) by (apply Z.pow_pos_nonneg; lia).
  set (h := 2 ^ (8 * Z.of_nat n - 1)) in *. set (m := 2 ^ (8 * Z.of_nat n)) in *. clearbody h m.
  destruct sg; cbn [andb].
  - destruct (Z_lt_le_dec x 0).
    + replace (x mod m) with (x + m).
      2:{ rewrite <- (Z.mod_small (x + m) m) by lia. replace (x + m) with (x + 1 * m) by lia. apply Z.mod_add; lia. }
      replace (h <=? x + m) with true by (symmetry; apply Z.leb_le; lia). lia.
    + rewrite Z.mod_small by lia.
      replace (h <=? x) with false by (symmetry; apply Z.leb_gt; lia). lia.
  - now rewrite Z.mod_small by lia.
Qed.

Lemma get_bytes_app n s rest : length s = n -> get_bytes n (s ++ rest) = Some (s, rest).
Proof.
  intro H. unfold get_bytes. rewrite app_length.
  replace (n <=? length s + length rest)%nat with true by (symmetry; apply Nat.leb_le; lia).
  rewrite <- H, firstn_app, skipn_app, Nat.sub_diag, firstn_all, skipn_all. cbn. now rewrite app_nil_r.
Qed.

(** ** The effect of reading a written value over an existing object *)
Fixpoint over (m : value -> value -> value) (d : value) (ws vs : list value) : list value :=
  match vs with
  | [] => []
  | v :: vs => match ws with
               | [] => m d v :: over m d [] vs
               | w :: ws => m w v :: over m d ws vs
               end
  end.

Fixpoint merge (lt : value -> value -> bool) (t : ty) (w v : value) {struct t} : value :=
  match t with
  | TInt _ _ | TBytes _ => v
  | TTuple ts =>
      VNode ((fix go (ts : list ty) (ws vs : list value) {struct ts} : list value :=
                match ts, ws, vs with
                | t :: ts, w :: ws, v :: vs => merge lt t w v :: go ts ws vs
                | _, _, _ => []
                end) ts (nodes w) (nodes v))
  | TVec t => VNode (over (merge lt t) (default t) (nodes w) (nodes v))
  | TList t => VNode (nodes w ++ nodes v)
  | TSet t => VNode (fold_left (set_emplace lt) (nodes v) (nodes w))
  | TMap _ _ => VMap (fold_left (fun l p => map_emplace lt l (fst p) (snd p)) (entries v) (entries w))
  end.

Section Order.
Variable lt : value -> value -> bool.
Hypothesis lt_asym : forall x y, lt x y = true -> lt y x = false.

Lemma set_emplace_last l x :
  Forall (fun y => lt y x = true) l -> set_emplace lt l x = l ++ [x].
Proof.
  induction 1 as [|y l H1 H2 IH]; cbn; [reflexivity|].
  rewrite (lt_asym _ _ H1), H1, IH. reflexivity.
Qed.

Lemma map_emplace_last l k v :
  Forall (fun y => lt (fst y) k = true) l -> map_emplace lt l k v = l ++ [(k, v)].
Proof.
  induction 1 as [|[y w] l H1 H2 IH]; cbn in *; [reflexivity|].
  rewrite (lt_asym _ _ H1), H1, IH. reflexivity.
Qed.

Lemma increasing_app {A} (r : A -> A -> bool) l1 l2 :
  increasing r (l1 ++ l2) -> forall x y, In x l1 -> In y l2 -> r x y = true.
Proof.
  unfold increasing. induction l1 as [|a l1 IH]; cbn; intros H x y Hx Hy; [easy|].
  inversion H; subst. destruct Hx as [->|Hx]; [|eauto].
  rewrite Forall_forall in *. apply H2. apply in_or_app; auto.
Qed.

Lemma set_fold l : forall acc, increasing lt (acc ++ l) -> fold_left (set_emplace lt) l acc = acc ++ l.
Proof.
  induction l as [|x l IH]; intros acc H; cbn; [now rewrite app_nil_r|].
  assert (E : acc ++ x :: l = (acc ++ [x]) ++ l) by now rewrite <- app_assoc.
  rewrite set_emplace_last.
  - rewrite IH; [now symmetry | now rewrite <- E].
  - apply Forall_forall. intros y Hy.
    eapply (increasing_app lt acc (x :: l)); eauto. now left.
Qed.

Lemma map_fold l : forall acc, increasing (fun p q => lt (fst p) (fst q)) (acc ++ l) ->
  fold_left (fun l p => map_emplace lt l (fst p) (snd p)) l acc = acc ++ l.
Proof.
  induction l as [|[k v] l IH]; intros acc H; cbn; [now rewrite app_nil_r|].
  assert (E : acc ++ (k, v) :: l = (acc ++ [(k, v)]) ++ l) by now rewrite <- app_assoc.
  rewrite map_emplace_last.
  - rewrite IH; [now symmetry | now rewrite <- E].
  - apply Forall_forall. intros y Hy.
    apply (increasing_app (fun p q => lt (fst p) (fst q)) acc ((k, v) :: l) H y (k, v)); auto. now left.
Qed.

(** A default-constructed object takes the written value. *)
Lemma merge_default t : forall v, has_ty lt t v -> merge lt t (default t) v = v.
Proof.
  induction t as [n sg|n|ts IH|t IH|t IH|t IH|k v IHk IHv] using ty_induction; intros w Hw; try reflexivity;
    destruct w as [| |vs|l]; try easy.
  - apply has_ty_tuple in Hw. cbn. f_equal.
    induction Hw as [|t v ts vs H1 H2 IHw]; [reflexivity|].
    inversion IH; subst. cbn. f_equal; auto.
  - cbn in *. destruct Hw as [_ Hw]. f_equal. induction Hw; cbn; [reflexivity|]. f_equal; auto.
  - cbn in *. destruct Hw as (_ & _ & Hw). f_equal. now apply (set_fold vs []).
  - cbn in *. destruct Hw as (_ & _ & Hw). f_equal. now apply (map_fold l []).
Qed.

End Order.

Lemma get_each_app (g : value -> list Z -> option (value * list Z)) (p : value -> list Z) (m : value -> value -> value)
      (d : value) vs : forall ws rest,
  (forall w v rest, In v vs -> (w = d \/ In w ws) -> g w (p v ++ rest) = Some (m w v, rest)) ->
  get_each g (resize (length vs) d ws) (flat_map p vs ++ rest) = Some (over m d ws vs, rest).
Proof.
  unfold resize.
  induction vs as [|v vs IH]; intros ws rest H; [reflexivity|].
  destruct ws as [|w ws].
  - cbn. rewrite <- app_assoc, H by (cbn; auto).
    specialize (IH [] rest). cbn in IH. rewrite Nat.sub_0_r, firstn_nil in IH. cbn in IH.
    rewrite IH; [reflexivity|]. intros; apply H; cbn; tauto.
  - cbn. rewrite <- app_assoc, H by (cbn; auto).
    rewrite IH; [reflexivity|]. intros; apply H; cbn; tauto.
Qed.

Lemma get_times_app {A} (g : A -> list Z -> option (A * list Z)) {B} (p : B -> list Z) (h : A -> B -> A) vs :
  (forall a v rest, In v vs -> g a (p v ++ rest) = Some (h a v, rest)) ->
  forall a rest, get_times (length vs) g a (flat_map p vs ++ rest) = Some (fold_left h vs a, rest).
Proof.
  induction vs as [|v vs IH]; intros H a rest; cbn; [reflexivity|].
  rewrite <- app_assoc, H by (cbn; auto). apply IH. intros; apply H; cbn; auto.
Qed.

Lemma size_back big n : Z.of_nat n < 2 ^ 64 ->
  Z.to_nat (int_value big size_bytes false (int_bytes big size_bytes (Z.of_nat n))) = n.
Proof.
  intro H. rewrite int_value_bytes.
  - apply Nat2Z.id.
  - unfold size_bytes; lia.
  - change (2 ^ (8 * Z.of_nat size_bytes)) with (2 ^ 64). lia.
Qed.

Section RoundTrip.
Variable lt : value -> value -> bool.
Hypothesis lt_asym : forall x y, lt x y = true -> lt y x = false.
Variable big : bool.

Lemma fold_snoc (l : list value) : forall acc, fold_left (fun a x => a ++ [x]) l acc = acc ++ l.
Proof.
  induction l as [|x l IH]; intro acc; cbn; [now rewrite app_nil_r|]. rewrite IH, <- app_assoc. reflexivity.
Qed.

Lemma get_put t : forall w v rest, shaped t w -> has_ty lt t v ->
  get_value lt big t w (put_value big t v ++ rest) = Some (merge lt t w v, rest).
Proof.
  induction t as [n sg|n|ts IH|t IH|t IH|t IH|tk tv IHk IHv] using ty_induction; intros w v rest Hw Hv;
    destruct v as [x|s|vs|l]; try easy.
  - cbn in *. rewrite get_bytes_app by apply int_bytes_length.
    destruct Hv. now rewrite int_value_bytes.
  - cbn in *. rewrite get_bytes_app by apply Hv. reflexivity.
  - destruct w as [| |ws|]; try easy. apply shaped_tuple in Hw. apply has_ty_tuple in Hv.
    cbn.
    match goal with |- match ?X with _ => _ end = Some (VNode ?Y, rest) => enough (X = Some (Y, rest)) as -> by reflexivity end.
    revert vs Hv rest. induction Hw as [|t w ts ws H1 H2 IHw]; intros vs Hv rest; inversion Hv as [|? v ? vs' A B]; subst; [reflexivity|].
    apply Forall_cons_iff in IH as [C D]. rewrite <- app_assoc. rewrite C by auto. rewrite IHw by auto. reflexivity.
  - destruct Hv as [Hn Hv].
    cbn [get_value put_value]. rewrite <- app_assoc, get_bytes_app by apply int_bytes_length.
    rewrite size_back by exact Hn. rewrite (get_each_app _ _ (merge lt t)); [reflexivity|].
    intros w' v' rest' H1 H2. apply IH.
    + destruct H2 as [->|H2]; [apply default_shaped|].
      destruct w; cbn in *; try easy. rewrite Forall_forall in Hw. auto.
    + rewrite Forall_forall in Hv. auto.
  - destruct Hv as [Hn Hv].
    cbn [get_value put_value]. rewrite <- app_assoc, get_bytes_app by apply int_bytes_length.
    rewrite size_back by exact Hn. rewrite (get_times_app _ _ (fun a x => a ++ [x])).
    + rewrite fold_snoc. reflexivity.
    + intros a v' rest' H1. rewrite Forall_forall in Hv.
      rewrite IH by (try apply default_shaped; auto). now rewrite merge_default by auto.
  - destruct Hv as (Hn & Hv & _).
    cbn [get_value put_value]. rewrite <- app_assoc, get_bytes_app by apply int_bytes_length.
    rewrite size_back by exact Hn. rewrite (get_times_app _ _ (set_emplace lt)).
    + reflexivity.
    + intros a v' rest' H1. rewrite Forall_forall in Hv.
      rewrite IH by (try apply default_shaped; auto). now rewrite merge_default by auto.
  - destruct Hv as (Hn & Hv & _).
    cbn [get_value put_value]. rewrite <- app_assoc, get_bytes_app by apply int_bytes_length.
    rewrite size_back by exact Hn.
    rewrite (get_times_app _ _ (fun l p => map_emplace lt l (fst p) (snd p))).
    + reflexivity.
    + intros a [k' v'] rest' H1. rewrite Forall_forall in Hv. destruct (Hv _ H1) as [A B]; cbn in A, B.
      cbn [fst snd]. rewrite <- app_assoc.
      rewrite IHk by (try apply default_shaped; auto). rewrite merge_default by auto.
      rewrite IHv by (try apply default_shaped; auto). now rewrite merge_default by auto.
Qed.
End RoundTrip.

(** ** More input does not change what is read *)
Lemma get_bytes_Some n s b r : get_bytes n s = Some (b, r) -> s = b ++ r /\ length b = n.
Proof.
  unfold get_bytes. destruct (n <=? length s)%nat eqn:E; [|easy]. intro H; inversion H; subst.
  apply Nat.leb_le in E. split; [now rewrite firstn_skipn | now apply firstn_length_le].
Qed.

Lemma get_bytes_ext n s b r q : get_bytes n s = Some (b, r) -> get_bytes n (s ++ q) = Some (b, r ++ q).
Proof. intro H. apply get_bytes_Some in H as [-> H]. rewrite <- app_assoc. now apply get_bytes_app. Qed.

Lemma get_each_ext g : (forall w s w' r q, g w s = Some (w', r) -> g w (s ++ q) = Some (w', r ++ q)) ->
  forall l s l' r q, get_each g l s = Some (l', r) -> get_each g l (s ++ q) = Some (l', r ++ q).
Proof.
  intros H l. induction l as [|v l IH]; cbn; intros s l' r q E.
  - now inversion E.
  - destruct (g v s) as [[v1 s1]|] eqn:G; [|easy]. rewrite (H _ _ _ _ q G).
    destruct (get_each g l s1) as [[l2 s2]|] eqn:F; [|easy]. rewrite (IH _ _ _ q F). now inversion E.
Qed.

Lemma get_times_ext {A} (g : A -> list Z -> option (A * list Z)) :
  (forall w s w' r q, g w s = Some (w', r) -> g w (s ++ q) = Some (w', r ++ q)) ->
  forall n a s a' r q, get_times n g a s = Some (a', r) -> get_times n g a (s ++ q) = Some (a', r ++ q).
Proof.
  intros H n. induction n as [|n IH]; cbn; intros a s a' r q E.
  - now inversion E.
  - destruct (g a s) as [[v1 s1]|] eqn:G; [|easy]. rewrite (H _ _ _ _ q G). now apply IH.
Qed.

Lemma get_ext lt big t : forall w s w' r q,
  get_value lt big t w s = Some (w', r) -> get_value lt big t w (s ++ q) = Some (w', r ++ q).
Proof.
  induction t as [n sg|n|ts IH|t IH|t IH|t IH|tk tv IHk IHv] using ty_induction; intros w s w' r q E; cbn in *.
  - destruct (get_bytes n s) as [[b s1]|] eqn:G; [|easy]. rewrite (get_bytes_ext _ _ _ _ q G). now inversion E.
  - destruct (get_bytes n s) as [[b s1]|] eqn:G; [|easy]. rewrite (get_bytes_ext _ _ _ _ q G). now inversion E.
  - match type of E with match ?X with _ => _ end = _ => destruct X as [[l s1]|] eqn:G; [|easy] end.
    inversion E; subst; clear E.
    match goal with |- match ?X with _ => _ end = _ => enough (X = Some (l, r ++ q)) as -> by reflexivity end.
    revert s l G. generalize (nodes w). induction IH as [|t ts H1 H2 IHw]; intros ws s l G; [now inversion G|].
    destruct ws as [|w1 ws]; [now inversion G|].
    destruct (get_value lt big t w1 s) as [[v1 s1]|] eqn:F; [|easy]. rewrite (H1 _ _ _ _ q F).
    match type of G with match ?X with _ => _ end = _ => destruct X as [[l2 s2]|] eqn:G2; [|easy] end.
    inversion G; subst. now rewrite (IHw _ _ _ G2).
  - destruct (get_bytes size_bytes s) as [[b s1]|] eqn:G; [|easy]. rewrite (get_bytes_ext _ _ _ _ q G).
    match type of E with match ?X with _ => _ end = _ => destruct X as [[l s2]|] eqn:F; [|easy] end.
    rewrite (get_each_ext _ IH _ _ _ _ q F). now inversion E.
  - destruct (get_bytes size_bytes s) as [[b s1]|] eqn:G; [|easy]. rewrite (get_bytes_ext _ _ _ _ q G).
    match type of E with match ?X with _ => _ end = _ => destruct X as [[l s2]|] eqn:F; [|easy] end.
    erewrite get_times_ext; [|clear F; intros l1 t1 l2 t2 q1 H|exact F]; [now inversion E|].
    destruct (get_value lt big t (default t) t1) as [[v1 t3]|] eqn:K; [|easy].
    rewrite (IH _ _ _ _ q1 K). now inversion H.
  - destruct (get_bytes size_bytes s) as [[b s1]|] eqn:G; [|easy]. rewrite (get_bytes_ext _ _ _ _ q G).
    match type of E with match ?X with _ => _ end = _ => destruct X as [[l s2]|] eqn:F; [|easy] end.
    erewrite get_times_ext; [|clear F; intros l1 t1 l2 t2 q1 H|exact F]; [now inversion E|].
    destruct (get_value lt big t (default t) t1) as [[v1 t3]|] eqn:K; [|easy].
    rewrite (IH _ _ _ _ q1 K). now inversion H.
  - destruct (get_bytes size_bytes s) as [[b s1]|] eqn:G; [|easy]. rewrite (get_bytes_ext _ _ _ _ q G).
    match type of E with match ?X with _ => _ end = _ => destruct X as [[l s2]|] eqn:F; [|easy] end.
    erewrite get_times_ext; [|clear F; intros l1 t1 l2 t2 q1 H|exact F]; [now inversion E|].
    destruct (get_value lt big tk (default tk) t1) as [[v1 t3]|] eqn:K; [|easy].
    rewrite (IHk _ _ _ _ q1 K).
    destruct (get_value lt big tv (default tv) t3) as [[v2 t4]|] eqn:L; [|easy].
    rewrite (IHv _ _ _ _ q1 L). now inversion H.
Qed.

(** ** Every successful read of a sequence type reads an encoding *)
(** Types without ordered containers. *)
Fixpoint sequential (t : ty) : Prop :=
  match t with
  | TInt n _ => (0 < n)%nat
  | TBytes _ => True
  | TTuple ts => (fix go ts := match ts with [] => True | t :: ts => sequential t /\ go ts end) ts
  | TVec t | TList t => sequential t
  | TSet _ | TMap _ _ => False
  end.

Lemma sequential_tuple ts : sequential (TTuple ts) <-> Forall sequential ts.
Proof.
  induction ts as [|t ts IH]; cbn; [split; auto|]. cbn in IH. rewrite IH, Forall_cons_iff. reflexivity.
Qed.

Lemma int_bytes_value big n (sg : bool) b : (0 < n)%nat -> length b = n -> Forall is_byte b ->
  int_bytes big n (int_value big n sg b) = b
  /\ (if sg then - 2 ^ (8 * Z.of_nat n - 1) <= int_value big n sg b < 2 ^ (8 * Z.of_nat n - 1)
      else 0 <= int_value big n sg b < 2 ^ (8 * Z.of_nat n)).
Proof.
  intros Hn L H. unfold int_value, int_bytes.
  set (c := if big then rev b else b).
  assert (Hc : Forall is_byte c /\ length c = n).
  { unfold c; destruct big; auto. split; [now apply Forall_rev | now rewrite rev_length]. }
  destruct Hc as [Hc Lc].
  assert (Bk : (if big then rev c else c) = b) by (unfold c; destruct big; rewrite ?rev_involutive; reflexivity).
  assert (X : forall x, x mod 2 ^ (8 * Z.of_nat n) = le_value c -> le_bytes n x = c).
  { intros x Hx. rewrite <- (le_bytes_value c Hc), Lc, <- Hx.
    rewrite <- le_value_bytes.
    assert (Y := le_bytes_value (le_bytes n x) (le_bytes_byte n x)).
    rewrite le_bytes_length in Y. now rewrite Y. }
  assert (Hb := le_value_bound c Hc). rewrite Lc in Hb.
  assert (E : 2 ^ (8 * Z.of_nat n) = 2 * 2 ^ (8 * Z.of_nat n - 1)).
  { rewrite <- (Z.pow_succ_r 2) by lia. f_equal. lia. }
  set (h := 2 ^ (8 * Z.of_nat n - 1)) in *. set (m := 2 ^ (8 * Z.of_nat n)) in *. clearbody h m.
  assert (S1 : le_value c mod m = le_value c) by (apply Z.mod_small; lia).
  assert (S2 : (le_value c - m) mod m = le_value c).
  { rewrite <- S1 at 2. replace (le_value c - m) with (le_value c + (-1) * m) by lia. apply Z.mod_add. lia. }
  destruct sg; cbn [andb].
  - destruct (Z.leb_spec h (le_value c)).
    + rewrite (X _ S2). split; [exact Bk | lia].
    + rewrite (X _ S1). split; [exact Bk | lia].
  - rewrite (X _ S1). split; [exact Bk | lia].
Qed.

Lemma Forall_app_l {A} (P : A -> Prop) l1 l2 : Forall P (l1 ++ l2) -> Forall P l1 /\ Forall P l2.
Proof. apply Forall_app. Qed.

Lemma get_canonical lt big t : sequential t -> forall s v r, Forall is_byte s ->
  get_value lt big t (default t) s = Some (v, r) ->
  has_ty lt t v /\ s = put_value big t v ++ r.
Proof.
  induction t as [n sg|n|ts IH|t IH|t IH|t IH|tk tv IHk IHv] using ty_induction; intros HS s v r Hs E; try easy.
  - cbn in *. destruct (get_bytes n s) as [[b s1]|] eqn:G; [|easy]. inversion E; subst; clear E.
    apply get_bytes_Some in G as [-> L]. apply Forall_app in Hs as [Hb Hr].
    destruct (int_bytes_value big n sg b HS L Hb) as [A B]. rewrite A. auto.
  - cbn in *. destruct (get_bytes n s) as [[b s1]|] eqn:G; [|easy]. inversion E; subst; clear E.
    apply get_bytes_Some in G as [-> L]. apply Forall_app in Hs as [Hb Hr]. auto.
  - apply sequential_tuple in HS. cbn in E.
    match type of E with match ?X with _ => _ end = _ => destruct X as [[l s1]|] eqn:G; [|easy] end.
    inversion E; subst; clear E.
    rewrite has_ty_tuple. cbn.
    revert s l Hs G. induction IH as [|t ts H1 H2 IHw]; intros s l Hs G; cbn in G.
    { inversion G; subst. split; [constructor | reflexivity]. }
    apply Forall_cons_iff in HS as [HS1 HS2].
    destruct (get_value lt big t (default t) s) as [[v1 s1]|] eqn:F; [|easy].
    destruct (H1 HS1 _ _ _ Hs F) as [A ->]. apply Forall_app in Hs as [Hs1 Hs].
    match type of G with match ?X with _ => _ end = _ => destruct X as [[l2 s2]|] eqn:G2; [|easy] end.
    inversion G; subst. destruct (IHw HS2 _ _ Hs G2) as [B ->]. split; [now constructor|].
    now rewrite <- app_assoc.
  - cbn in HS. cbn [get_value default nodes] in E.
    destruct (get_bytes size_bytes s) as [[b s1]|] eqn:G; [|easy].
    apply get_bytes_Some in G as [-> L]. apply Forall_app in Hs as [Hb Hs].
    destruct (int_bytes_value big size_bytes false b ltac:(unfold size_bytes; lia) L Hb) as [A B].
    match type of E with match ?X with _ => _ end = _ => destruct X as [[l s2]|] eqn:F; [|easy] end.
    inversion E; subst; clear E. unfold resize in F. rewrite firstn_nil in F. cbn [length app] in F.
    rewrite Nat.sub_0_r in F.
    set (k := int_value big size_bytes false b) in *. change (2 ^ (8 * Z.of_nat size_bytes)) with (2 ^ 64) in B.
    assert (X : forall n s, Forall is_byte s -> get_each (get_value lt big t) (repeat (default t) n) s = Some (l, r) ->
                length l = n /\ Forall (has_ty lt t) l /\ s = flat_map (put_value big t) l ++ r).
    { clear -IH HS. revert l. intros l n. revert l. induction n as [|n IHn]; intros l s Hs F; cbn in F.
      - inversion F; subst. auto.
      - destruct (get_value lt big t (default t) s) as [[v1 s1]|] eqn:K; [|easy].
        destruct (IH HS _ _ _ Hs K) as [A ->]. apply Forall_app in Hs as [Hs1 Hs].
        destruct (get_each (get_value lt big t) (repeat (default t) n) s1) as [[l2 s2]|] eqn:M; [|easy].
        inversion F; subst. destruct (IHn _ _ Hs M) as (B1 & B2 & ->). cbn. rewrite <- app_assoc. auto. }
    destruct (X _ _ Hs F) as (Y1 & Y2 & ->). cbn [has_ty put_value]. rewrite Y1, Z2Nat.id by lia.
    rewrite A, <- app_assoc. repeat split; auto; lia.
  - cbn in HS. cbn [get_value default nodes] in E.
    destruct (get_bytes size_bytes s) as [[b s1]|] eqn:G; [|easy].
    apply get_bytes_Some in G as [-> L]. apply Forall_app in Hs as [Hb Hs].
    destruct (int_bytes_value big size_bytes false b ltac:(unfold size_bytes; lia) L Hb) as [A B].
    match type of E with match ?X with _ => _ end = _ => destruct X as [[l s2]|] eqn:F; [|easy] end.
    inversion E; subst; clear E.
    set (k := int_value big size_bytes false b) in *. change (2 ^ (8 * Z.of_nat size_bytes)) with (2 ^ 64) in B.
    match type of F with get_times _ ?g _ _ = _ => set (step := g) in * end.
    assert (X : forall n s a, Forall is_byte s -> get_times n step a s = Some (l, r) ->
                exists l', l = a ++ l' /\ length l' = n /\ Forall (has_ty lt t) l' /\ s = flat_map (put_value big t) l' ++ r).
    { clear -IH HS. intro n. induction n as [|n IHn]; intros s a Hs F; cbn in F.
      - inversion F; subst. exists []. rewrite app_nil_r. auto.
      - unfold step in F at 1. destruct (get_value lt big t (default t) s) as [[v1 s1]|] eqn:K; [|easy].
        destruct (IH HS _ _ _ Hs K) as [A ->]. apply Forall_app in Hs as [Hs1 Hs].
        destruct (IHn _ _ Hs F) as (l' & -> & B1 & B2 & ->). exists (v1 :: l').
        cbn. rewrite <- !app_assoc. auto. }
    destruct (X _ _ _ Hs F) as (l' & -> & Y1 & Y2 & ->). cbn [app has_ty put_value]. rewrite Y1, Z2Nat.id by lia.
    rewrite A, <- app_assoc. repeat split; auto; lia.
Qed.

(** ** Types whose objects are overwritten by reading *)
Fixpoint overwriting (t : ty) : Prop :=
  match t with
  | TInt _ _ | TBytes _ => True
  | TTuple ts => (fix go ts := match ts with [] => True | t :: ts => overwriting t /\ go ts end) ts
  | TVec t => overwriting t
  | TList _ | TSet _ | TMap _ _ => False
  end.

Lemma overwriting_tuple ts : overwriting (TTuple ts) <-> Forall overwriting ts.
Proof.
  induction ts as [|t ts IH]; cbn; [split; auto|]. cbn in IH. rewrite IH, Forall_cons_iff. reflexivity.
Qed.

Lemma merge_overwriting lt t : overwriting t -> forall w v, shaped t w -> has_ty lt t v -> merge lt t w v = v.
Proof.
  induction t as [n sg|n|ts IH|t IH|t IH|t IH|tk tv IHk IHv] using ty_induction; intros HO w v Hw Hv; try easy;
    destruct v as [x|s|vs|l]; try easy.
  - apply overwriting_tuple in HO. destruct w as [| |ws|]; try easy.
    apply shaped_tuple in Hw. apply has_ty_tuple in Hv. cbn. f_equal.
    revert ws Hw. induction Hv as [|t v ts vs H1 H2 IHv]; intros ws Hw; inversion Hw as [|? w ? ws' A B]; subst; [reflexivity|].
    apply Forall_cons_iff in IH as [C D]. apply Forall_cons_iff in HO as [O1 O2].
    f_equal; auto.
  - cbn in *. destruct Hv as [_ Hv]. f_equal.
    assert (Hn : Forall (shaped t) (nodes w)) by (destruct w; cbn; auto). clear Hw.
    revert Hn. generalize (nodes w). induction Hv as [|v vs H1 H2 IHv]; intros ws Hn; [reflexivity|].
    destruct ws as [|w1 ws]; cbn; f_equal; auto.
    + apply IH; auto. apply default_shaped.
    + apply IH; auto. now inversion Hn.
    + apply IHv. now inversion Hn.
Qed.
