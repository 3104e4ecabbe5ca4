(** The list of vertices and edges: property C124. *)
From Coq Require Import ZArith List Bool Arith Lia Sorted.
From Verif Require Import Outcome VELModel.
Import ListNotations.

(** ** Specification *)

(** Two requests for an edge, each (source, target, data), join the same vertices. *)
Definition joins {V} (und : bool) (x y : V * V * nat) : Prop :=
  fst x = fst y \/ und = true /\ fst (fst x) = snd (fst y) /\ snd (fst x) = fst (fst y).

(** [kept unique und h K bs]: of the requests [h] those in [K] are accepted, [bs] are the answers:
    without parallel edges a request is refused if an accepted one joins the same vertices. *)
Inductive kept {V} (unique und : bool) :
    list (V * V * nat) -> list (V * V * nat) -> list bool -> Prop :=
| kept_nil : kept unique und [] [] []
| kept_in h K bs x : kept unique und h K bs ->
    unique = false \/ ~ Exists (joins und x) K ->
    kept unique und (h ++ [x]) (K ++ [x]) (bs ++ [true])
| kept_out h K bs x : kept unique und h K bs ->
    unique = true -> Exists (joins und x) K ->
    kept unique und (h ++ [x]) K (bs ++ [false]).

(** An edge stored for a request has its data and its ends, in some order if undirected. *)
Definition stored {V} (und : bool) (x e : V * V * nat) : Prop :=
  snd e = snd x /\
  (fst e = fst x \/ und = true /\ fst (fst e) = snd (fst x) /\ snd (fst e) = fst (fst x)).

(** The number of vertices and the value of each *)
Definition update (f : Z -> nat) (u : Z) (x : nat) : Z -> nat :=
  fun v => if (v =? u)%Z then x else f v.
Definition vertices_after (s : Z * (Z -> nat)) (o : wop) : Z * (Z -> nat) :=
  match o with
  | WEdge u v _ => (Z.max (fst s) (Z.max u v + 1), snd s)
  | WVertex x => ((fst s + 1)%Z, update (snd s) (fst s) x)
  | WWrite u x => (fst s, update (snd s) u x)
  | WResize n => (Z.of_nat n, fun v => if (v <? Z.of_nat n)%Z then snd s v else 0)
  end.
Definition vertices_of (n : nat) (h : list wop) : Z * (Z -> nat) :=
  fold_left vertices_after h (Z.of_nat n, fun _ => 0).

(** Requests that a caller may make of a graph with [c] vertices *)
Definition op_valid (c : Z) (o : wop) : Prop :=
  match o with
  | WEdge u v _ => (0 <= u < 2 ^ 31 - 1 /\ 0 <= v < 2 ^ 31 - 1)%Z
  | WWrite u _ => (0 <= u < c)%Z
  | _ => True
  end.
Definition op_grows (c : Z) (o : wop) : Prop :=
  match o with WResize n => (c <= Z.of_nat n)%Z | _ => True end.
Definition all_ops (P : Z -> wop -> Prop) (n : nat) (h : list wop) : Prop :=
  forall h1 o h2, h = h1 ++ o :: h2 -> P (fst (vertices_of n h1)) o.

Definition edge_requests (h : list wop) : list (Z * Z * nat) :=
  flat_map (fun o => match o with WEdge u v p => [(u, v, p)] | _ => [] end) h.
Definition edge_answers (rs : list wreply) : list bool :=
  flat_map (fun r => match r with REdge e => [snd e] | _ => [] end) rs.

Definition strict_total {V} (before : V -> V -> bool) : Prop :=
  (forall a b, before a b = true -> before b a = false) /\
  (forall a b, before a b = false -> before b a = false -> a = b).

(** ** Edges *)

Section Edges.
  Context {V : Type} (eqb before : V -> V -> bool) (und unique : bool).
  Context (Heq : forall a b, eqb a b = true <-> a = b) (Hord : strict_total before).

  Definition normal_form (e : V * V * nat) : Prop :=
    und = true -> before (snd (fst e)) (fst (fst e)) = false.

  Definition Inv (K l : list (V * V * nat)) : Prop :=
    Forall2 (stored und) K l /\ Forall normal_form l.

  Lemma order_cases u v : exists a b, order before und u v = (a, b) /\
    ((a, b) = (u, v) \/ und = true /\ (a, b) = (v, u)) /\ (und = true -> before b a = false).
  Proof.
    unfold order. destruct und; cbn [andb].
    - destruct (before v u) eqn:E.
      + exists v, u. split; [reflexivity|]. split; [now right|]. intros _. now apply Hord.
      + exists u, v. split; [reflexivity|]. split; [now left|]. now intros _.
    - exists u, v. split; [reflexivity|]. split; [now left|]. intro; discriminate.
  Qed.

  Lemma same_ends_joins u v p a b x e : order before und u v = (a, b) ->
    stored und x e -> normal_form e ->
    same_ends eqb a b e = true <-> joins und (u, v, p) x.
  Proof.
    intros EO (_ & S) N.
    destruct (order_cases u v) as (a' & b' & EO' & C & O). rewrite EO in EO'. injection EO' as <- <-.
    unfold same_ends. rewrite andb_true_iff, !Heq.
    destruct x as [[x1 x2] xp], e as [[e1 e2] ep]. unfold normal_form in N. unfold joins.
    cbn [fst snd] in *. split.
    - intros [-> ->]. destruct C as [C|[U C]]; injection C as -> ->;
        destruct S as [S|(U' & -> & ->)]; try injection S as -> ->; intuition congruence.
    - intros J.
      assert (D : (e1 = a /\ e2 = b) \/ (und = true /\ e1 = b /\ e2 = a)).
      { destruct C as [C|[U C]]; injection C as -> ->;
        destruct S as [S|(U' & S1 & S2)]; try (injection S as S1 S2);
        destruct J as [J|(U'' & J1 & J2)]; try (injection J as J1 J2);
        first [left; split; congruence | right; repeat split; congruence]. }
      destruct D as [D|(U & -> & ->)]; [exact D|].
      specialize (N U). specialize (O U). destruct Hord as [_ T].
      pose proof (T a b N O). subst. auto.
  Qed.

  Lemma existsb_joins u v p a b K l : order before und u v = (a, b) -> Inv K l ->
    existsb (same_ends eqb a b) l = true <-> Exists (joins und (u, v, p)) K.
  Proof.
    intros EO [F N]. revert N. induction F as [|x e K l S F IH]; intro N.
    - split; intro H; [discriminate | inversion H].
    - inversion N as [|? ? N1 N2]; subst. cbn [existsb]. rewrite orb_true_iff, IH by exact N2.
      rewrite (same_ends_joins u v p a b x e EO S N1). rewrite Exists_cons. reflexivity.
  Qed.

  Lemma position_spec a b l : existsb (same_ends eqb a b) l = true ->
    exists q, nth_error l (position eqb a b l) = Some (a, b, q).
  Proof.
    induction l as [|[[e1 e2] q] l IH]; cbn [existsb position]; [discriminate|].
    destruct (same_ends eqb a b (e1, e2, q)) eqn:E.
    - intros _. unfold same_ends in E. cbn [fst snd] in E. apply andb_prop in E as [E1 E2].
      apply Heq in E1. apply Heq in E2. subst. now exists q.
    - exact IH.
  Qed.

  (** What one addition does *)
  Lemma try_add_spec K l u v p h bs : Inv K l -> kept unique und h K bs ->
    exists l' a b i nw K', try_add eqb before und unique l u v p = (l', (a, b, i, nw)) /\
      Inv K' l' /\ kept unique und (h ++ [(u, v, p)]) K' (bs ++ [nw]) /\
      order before und u v = (a, b) /\ (exists T, l' = l ++ T) /\
      exists q, nth_error l' i = Some (a, b, q) /\ (nw = true -> q = p).
  Proof.
    intros I HK. destruct (order_cases u v) as (a & b & EO & C & O).
    unfold try_add. rewrite EO. pose proof (existsb_joins u v p a b K l EO I) as EX.
    destruct (unique && existsb (same_ends eqb a b) l) eqn:D.
    - apply andb_prop in D as [U D]. destruct (position_spec a b l D) as (q & Q).
      exists l, a, b, (position eqb a b l), false, K. split; [reflexivity|]. split; [exact I|].
      split; [apply kept_out; [exact HK | exact U | now apply EX]|].
      split; [reflexivity|]. split; [exists []; now rewrite app_nil_r|].
      exists q. split; [exact Q | intro; discriminate].
    - exists (l ++ [(a, b, p)]), a, b, (length l), true, (K ++ [(u, v, p)]).
      split; [reflexivity|]. split; [|split; [|split; [reflexivity|split]]].
      + destruct I as [F N]. split.
        * apply Forall2_app; [exact F|]. constructor; [|constructor]. unfold stored. cbn [fst snd].
          split; [reflexivity|]. destruct C as [C|[U C]]; injection C as -> ->; auto.
        * apply Forall_app. split; [exact N|]. constructor; [exact O|constructor].
      + apply kept_in; [exact HK|]. apply andb_false_iff in D as [D|D]; [now left|right].
        intro X. apply EX in X. congruence.
      + now exists [(a, b, p)].
      + exists p. split; [|auto]. rewrite nth_error_app2 by apply Nat.le_refl.
        now rewrite Nat.sub_diag.
  Qed.
End Edges.

(** ** Vertices in a vector *)

Lemma Zlt_total : strict_total Z.ltb.
Proof.
  split; intros a b.
  - rewrite Z.ltb_lt, Z.ltb_ge. lia.
  - rewrite !Z.ltb_ge. lia.
Qed.

Lemma resize_length l n : length (resize l n) = n.
Proof.
  unfold resize. rewrite app_length, firstn_length, repeat_length. lia.
Qed.

Lemma nth_firstn_lt (l : list nat) n i : i < n -> nth i (firstn n l) 0 = nth i l 0.
Proof.
  revert n i. induction l as [|x l IH]; intros n i H.
  - now rewrite firstn_nil.
  - destruct n; [lia|]. destruct i; [reflexivity|]. cbn. apply IH. lia.
Qed.

Lemma nth_resize l n i : nth i (resize l n) 0 = if i <? n then nth i l 0 else 0.
Proof.
  unfold resize. destruct (i <? n) eqn:E.
  - apply Nat.ltb_lt in E. destruct (Nat.lt_ge_cases i (length l)).
    + rewrite app_nth1 by (rewrite firstn_length; lia). now apply nth_firstn_lt.
    + rewrite app_nth2 by (rewrite firstn_length; lia). rewrite nth_repeat.
      symmetry. now apply nth_overflow.
  - apply Nat.ltb_ge in E. apply nth_overflow.
    rewrite app_length, firstn_length, repeat_length. lia.
Qed.

Lemma put_length l i x : length (put l i x) = length l.
Proof. revert i. induction l; intros [|i]; cbn; auto. Qed.

Lemma nth_put l i x j : i < length l -> nth j (put l i x) 0 = if j =? i then x else nth j l 0.
Proof.
  revert i j. induction l as [|y l IH]; intros i j H; cbn in H; [lia|].
  destruct i, j; cbn; try reflexivity. apply IH. lia.
Qed.

(** The vector against the specification *)
Definition vinv (vs : list nat) (s : Z * (Z -> nat)) : Prop :=
  fst s = Z.of_nat (length vs) /\ (forall v, (0 <= v)%Z -> snd s v = nth (Z.to_nat v) vs 0).

Lemma vinv_resize vs s n : vinv vs s ->
  vinv (resize vs n) (Z.of_nat n, fun v => if (v <? Z.of_nat n)%Z then snd s v else 0).
Proof.
  intros [L F]. split; cbn [fst snd]; [now rewrite resize_length|].
  intros v Hv. rewrite nth_resize, F by exact Hv.
  destruct (Z.ltb_spec v (Z.of_nat n)), (Nat.ltb_spec (Z.to_nat v) n); try lia; reflexivity.
Qed.

Section Vector.
  Context (und unique : bool).

  Definition reply_to (es : list (Z * Z * nat)) (c : Z) (o : wop) (r : wreply) : Prop :=
    match o, r with
    | WEdge u v p, REdge (a, b, i, nw) =>
        (a, b) = (if und then (Z.min u v, Z.max u v) else (u, v)) /\
        exists q, nth_error es i = Some (a, b, q) /\ (nw = true -> q = p)
    | WVertex _, RVertex u => u = c
    | WWrite _ _, RNone | WResize _, RNone => True
    | _, _ => False
    end.

  Lemma reply_more es T c o r : reply_to es c o r -> reply_to (es ++ T) c o r.
  Proof.
    destruct o, r; cbn; auto. destruct e as [[[a b] i] nw]. intros (E & q & Q & P).
    split; [exact E|]. exists q. split; [|exact P]. rewrite nth_error_app1; [exact Q|].
    apply nth_error_Some. congruence.
  Qed.

  Lemma order_min u v : order Z.ltb und u v = (if und then (Z.min u v, Z.max u v) else (u, v)).
  Proof.
    unfold order. destruct und; cbn [andb]; [|reflexivity].
    destruct (Z.ltb_spec v u); f_equal; lia.
  Qed.

  Lemma step_spec g s K hs bs o :
    vinv (w_vs g) s -> Inv Z.ltb und K (w_es g) -> kept unique und hs K bs -> op_valid (fst s) o ->
    exists g' r K' T, w_step und unique g o = Ok (g', r) /\ vinv (w_vs g') (vertices_after s o) /\
      Inv Z.ltb und K' (w_es g') /\
      kept unique und (hs ++ edge_requests [o]) K' (bs ++ edge_answers [r]) /\
      w_es g' = w_es g ++ T /\ reply_to (w_es g') (fst s) o r.
  Proof.
    intros VI I HK OV. destruct o as [u v p|x|u x|n]; cbn [w_step vertices_after] in *.
    - cbn [op_valid] in OV. destruct (try_add_spec Z.eqb Z.ltb und unique Z.eqb_eq Zlt_total
        K (w_es g) u v p hs bs I HK) as (l' & a & b & i & nw & K' & E & I' & HK' & EO & (T & ET) & Q).
      unfold w_add_edge. rewrite E.
      assert (VS : exists vs, (if (Z.of_nat (length (w_vs g)) <=? Z.max u v)%Z
                then if (Z.max u v =? 2 ^ 31 - 1)%Z then UB
                     else Ok (resize (w_vs g) (Z.to_nat (Z.max u v + 1)))
                else Ok (w_vs g)) = Ok vs /\
               vinv vs (Z.max (fst s) (Z.max u v + 1), snd s)%Z).
      { destruct VI as [L F]. destruct (Z.leb_spec (Z.of_nat (length (w_vs g))) (Z.max u v)).
        - destruct (Z.eqb_spec (Z.max u v) (2 ^ 31 - 1)); [lia|]. eexists. split; [reflexivity|].
          split; cbn [fst snd]; [rewrite resize_length; lia|].
          intros w Hw. rewrite nth_resize, F by exact Hw.
          destruct (Nat.ltb_spec (Z.to_nat w) (Z.to_nat (Z.max u v + 1))); [reflexivity|].
          apply nth_overflow. lia.
        - eexists. split; [reflexivity|]. split; cbn [fst snd]; [lia | exact F]. }
      change int_max with (2 ^ 31 - 1)%Z. destruct VS as (vs & -> & VI'). cbn [bind].
      exists {| w_vs := vs; w_es := l' |}, (REdge (a, b, i, nw)), K', T.
      split; [reflexivity|]. split; [exact VI'|]. split; [exact I'|]. split; [exact HK'|].
      split; [exact ET|]. cbn [reply_to w_es]. split; [now rewrite <- EO, order_min|exact Q].
    - eexists _, _, K, []. split; [reflexivity|]. destruct VI as [L F]. split.
      + split; cbn [fst snd w_vs]; [rewrite app_length; cbn; lia|]. intros v Hv. unfold update.
        destruct (Z.eqb_spec v (fst s)) as [->|D].
        * rewrite app_nth2 by lia. replace (Z.to_nat (fst s) - length (w_vs g)) with 0 by lia. reflexivity.
        * rewrite F by exact Hv. destruct (Nat.lt_ge_cases (Z.to_nat v) (length (w_vs g))).
          -- now rewrite app_nth1.
          -- rewrite !nth_overflow; [reflexivity| rewrite app_length; cbn; lia | lia].
      + cbn. rewrite !app_nil_r. repeat split; auto; apply I.
    - cbn [op_valid] in OV. destruct VI as [L F].
      replace ((0 <=? u) && (u <? Z.of_nat (length (w_vs g))))%Z with true
        by (symmetry; rewrite andb_true_iff, Z.leb_le, Z.ltb_lt; lia).
      cbn [assert_then]. eexists _, _, K, []. split; [reflexivity|]. split.
      + split; cbn [fst snd w_vs]; [now rewrite put_length|]. intros v Hv. unfold update.
        rewrite nth_put by lia. rewrite F by exact Hv.
        destruct (Z.eqb_spec v u), (Nat.eqb_spec (Z.to_nat v) (Z.to_nat u)); try lia; reflexivity.
      + cbn. rewrite !app_nil_r. repeat split; auto; apply I.
    - eexists _, _, K, []. split; [reflexivity|]. split; [now apply vinv_resize|].
      cbn. rewrite !app_nil_r. repeat split; auto; apply I.
  Qed.

  Definition all_from (P : Z -> wop -> Prop) (s : Z * (Z -> nat)) (h : list wop) : Prop :=
    forall h1 o h2, h = h1 ++ o :: h2 -> P (fst (fold_left vertices_after h1 s)) o.

  Lemma all_from_cons P s o h : all_from P s (o :: h) -> P (fst s) o /\ all_from P (vertices_after s o) h.
  Proof.
    intro A. split; [apply (A [] o h eq_refl)|]. intros h1 o' h2 ->. apply (A (o :: h1) o' h2 eq_refl).
  Qed.

  Lemma run_spec h : forall g s K hs bs,
    vinv (w_vs g) s -> Inv Z.ltb und K (w_es g) -> kept unique und hs K bs -> all_from op_valid s h ->
    exists g' rs K' T, w_run und unique g h = Ok (g', rs) /\
      vinv (w_vs g') (fold_left vertices_after h s) /\ Inv Z.ltb und K' (w_es g') /\
      kept unique und (hs ++ edge_requests h) K' (bs ++ edge_answers rs) /\
      w_es g' = w_es g ++ T /\ length rs = length h /\
      (forall h1 o h2, h = h1 ++ o :: h2 -> exists r, nth_error rs (length h1) = Some r /\
         reply_to (w_es g') (fst (fold_left vertices_after h1 s)) o r).
  Proof.
    induction h as [|o h IH]; intros g s K hs bs VI I HK AV.
    - exists g, [], K, []. cbn. rewrite !app_nil_r. repeat split; auto; try apply I; try apply VI.
      intros [|? ?] ? ? H; discriminate.
    - apply all_from_cons in AV as [AV1 AV2].
      destruct (step_spec g s K hs bs o VI I HK AV1)
        as (g1 & r & K1 & T1 & E1 & VI1 & I1 & HK1 & ET1 & R1).
      destruct (IH g1 _ K1 _ _ VI1 I1 HK1 AV2)
        as (g2 & rs & K2 & T2 & E2 & VI2 & I2 & HK2 & ET2 & L2 & R2).
      exists g2, (r :: rs), K2, (T1 ++ T2). cbn [w_run fold_left]. rewrite E1. cbn [bind]. rewrite E2.
      split; [reflexivity|]. split; [exact VI2|]. split; [exact I2|].
      split; [|split; [|split]].
      + cbn [edge_requests edge_answers flat_map] in *. rewrite !app_nil_r in HK2.
        now rewrite !app_assoc.
      + now rewrite ET2, ET1, app_assoc.
      + cbn. now rewrite L2.
      + intros [|o1 h1] o' h2 H; cbn in H; injection H as <- H.
        * exists r. split; [reflexivity|]. rewrite ET2. now apply reply_more.
        * destruct (R2 h1 o' h2 H) as (r' & N & R). exists r'. now split.
  Qed.
End Vector.

Lemma w_init_vinv n : vinv (w_vs (w_init n)) (Z.of_nat n, fun _ => 0).
Proof.
  split; cbn [fst snd w_init w_vs]; [now rewrite resize_length|]. intros v _.
  rewrite nth_resize. destruct (_ <? _); [|reflexivity]. now destruct (Z.to_nat v).
Qed.

Lemma w_init_inv und n : Inv Z.ltb und [] (w_es (w_init n)).
Proof. split; constructor. Qed.

Lemma w_read_ok vs es s u : vinv vs s -> (0 <= u < fst s)%Z ->
  w_read {| w_vs := vs; w_es := es |} u = Ok (snd s u).
Proof.
  intros [L F] H. unfold w_read. cbn [w_vs].
  replace ((0 <=? u) && (u <? Z.of_nat (length vs)))%Z with true
    by (symmetry; rewrite andb_true_iff, Z.leb_le, Z.ltb_lt; lia).
  cbn [assert_then]. rewrite F by lia.
  destruct (nth_error vs (Z.to_nat u)) eqn:E.
  - now rewrite (nth_error_nth _ _ _ E).
  - apply nth_error_None in E. lia.
Qed.

(** Any history of valid requests of a graph with [n] vertices: the number of vertices and their
    values, the edges kept, and every answer. *)
Theorem C124_vector und unique n h : all_ops op_valid n h ->
  exists g rs K, w_run und unique (w_init n) h = Ok (g, rs) /\
    Z.of_nat (length (w_vs g)) = fst (vertices_of n h) /\
    (forall u, (0 <= u < fst (vertices_of n h))%Z -> w_read g u = Ok (snd (vertices_of n h) u)) /\
    kept unique und (edge_requests h) K (edge_answers rs) /\
    Forall2 (stored und) K (w_es g) /\ length rs = length h /\
    (forall h1 o h2, h = h1 ++ o :: h2 -> exists r, nth_error rs (length h1) = Some r /\
       match o, r with
       | WEdge u v p, REdge (a, b, i, nw) =>
           (a, b) = (if und then (Z.min u v, Z.max u v) else (u, v)) /\
           exists q, nth_error (w_es g) i = Some (a, b, q) /\ (nw = true -> q = p)
       | WVertex _, RVertex u => u = fst (vertices_of n h1)
       | WWrite _ _, RNone | WResize _, RNone => True
       | _, _ => False
       end).
Proof.
  intro AV. destruct (run_spec und unique h (w_init n) (Z.of_nat n, fun _ => 0) [] [] []
    (w_init_vinv n) (w_init_inv und n) (kept_nil _ _) AV)
    as (g & rs & K & T & E & VI & I & HK & _ & L & R).
  exists g, rs, K. split; [exact E|]. split; [symmetry; apply VI|].
  split; [intros u Hu; destruct g; now apply w_read_ok|].
  split; [exact HK|]. split; [apply I|]. split; [exact L|exact R].
Qed.

Lemma count_grows o s : op_grows (fst s) o -> (fst s <= fst (vertices_after s o))%Z.
Proof. destruct o; cbn; lia. Qed.

Lemma requests_bounded h : forall s, all_from op_valid s h -> all_from op_grows s h ->
  (fst s <= fst (fold_left vertices_after h s))%Z /\
  forall u v p, In (u, v, p) (edge_requests h) ->
    (0 <= u < fst (fold_left vertices_after h s) /\ 0 <= v < fst (fold_left vertices_after h s))%Z.
Proof.
  induction h as [|o h IH]; intros s AV AG; cbn [fold_left edge_requests flat_map].
  - split; [lia|]. intros u v p [].
  - apply all_from_cons in AV as [AV1 AV2]. apply all_from_cons in AG as [AG1 AG2].
    destruct (IH _ AV2 AG2) as [G B]. pose proof (count_grows o s AG1) as G1.
    split; [lia|]. intros u v p HI. apply in_app_iff in HI as [HI|HI]; [|now apply (B u v p)].
    destruct o; cbn in HI; try contradiction. destruct HI as [HI|[]]. injection HI as <- <- <-.
    cbn [op_valid vertices_after fst snd] in *. lia.
Qed.

Lemma kept_incl {V} unique und (h K : list (V * V * nat)) bs : kept unique und h K bs -> incl K h.
Proof.
  induction 1 as [|h K bs x HK IH D|h K bs x HK IH U X].
  - intros ? [].
  - apply incl_app; [now apply incl_appl | apply incl_appr, incl_refl].
  - now apply incl_appl.
Qed.

(** If the graph is never made smaller, both ends of every edge are vertices of it. *)
Theorem C124_endpoints und unique n h : all_ops op_valid n h -> all_ops op_grows n h ->
  exists g rs, w_run und unique (w_init n) h = Ok (g, rs) /\
    (Z.of_nat n <= Z.of_nat (length (w_vs g)))%Z /\
    forall u v p, In (u, v, p) (w_es g) ->
      (exists x, w_read g u = Ok x) /\ (exists y, w_read g v = Ok y).
Proof.
  intros AV AG. destruct (C124_vector und unique n h AV) as (g & rs & K & E & L & RD & HK & ST & _ & _).
  destruct (requests_bounded h (Z.of_nat n, fun _ => 0) AV AG) as [G B].
  exists g, rs. split; [exact E|]. split; [rewrite L; exact G|].
  intros u v p HI.
  assert (X : exists x, In x K /\ stored und x (u, v, p)).
  { clear - ST HI. induction ST as [|x e K l S F IH]; [contradiction|]. destruct HI as [->|HI].
    - exists x. split; [now left|exact S].
    - destruct (IH HI) as (y & Y & SY). exists y. split; [now right|exact SY]. }
  destruct X as ([[a b] q] & IK & (_ & S)). apply (kept_incl _ _ _ _ _ HK) in IK.
  specialize (B a b q IK). cbn [fst snd] in S. fold (vertices_of n h) in B.
  destruct S as [S|(_ & -> & ->)]; [injection S as -> ->|];
    split; eexists; apply RD; lia.
Qed.

(** A smaller graph keeps the edges at the vertices that are gone. *)
Theorem C124_shrink_refuted :
  ~ forall und unique n h, all_ops op_valid n h ->
    forall g rs, w_run und unique (w_init n) h = Ok (g, rs) ->
    forall u v p, In (u, v, p) (w_es g) -> exists x, w_read g v = Ok x.
Proof.
  intro H. specialize (H false false 0 [WEdge 0 2 7; WResize 1]%Z).
  assert (A : all_ops op_valid 0 [WEdge 0 2 7; WResize 1]%Z).
  { intros [|o1 [|o2 [|o3 h1]]] o h2 E; cbn in E; try discriminate.
    - injection E as <- _. cbn. lia.
    - injection E as _ <- _. exact I. }
  destruct (H A _ _ eq_refl 0%Z 2%Z 7 (or_introl eq_refl)) as (x & X). discriminate.
Qed.

(** Vertices are not checked: an edge may end at a negative one. *)
Theorem C124_negative_refuted n (u v : Z) p und unique : (u < 0)%Z -> (v < 0)%Z ->
  exists g i, w_add_edge und unique (w_init n) u v p
    = Ok (g, (if und then Z.min u v else u, if und then Z.max u v else v, i, true)) /\
    w_vs g = w_vs (w_init n) /\ w_read g u = AssertFail /\ w_read g v = AssertFail.
Proof.
  intros U W. unfold w_add_edge.
  destruct (Z.leb_spec (Z.of_nat (length (w_vs (w_init n)))) (Z.max u v)); [lia|].
  cbn [bind]. unfold try_add. rewrite order_min. destruct und; cbn [w_es w_init existsb length app];
    rewrite andb_false_r; do 2 eexists; (split; [reflexivity|]); (split; [reflexivity|]);
    unfold w_read; cbn [w_vs];
    rewrite (proj2 (Z.leb_gt 0 u) U), (proj2 (Z.leb_gt 0 v) W); split; reflexivity.
Qed.

(** The greatest int is not a possible vertex. *)
Theorem C124_int_max_refuted g u p und unique : (Z.of_nat (length (w_vs g)) <= 2 ^ 31 - 1)%Z ->
  (u <= 2 ^ 31 - 1)%Z -> w_add_edge und unique g u (2 ^ 31 - 1) p = UB.
Proof.
  change (2 ^ 31 - 1)%Z with int_max. intros L U. unfold w_add_edge. replace (Z.max u int_max) with int_max by lia.
  rewrite (proj2 (Z.leb_le _ _) L), Z.eqb_refl. reflexivity.
Qed.

(** ** Vertices in a set *)

Section Set_.
  Context (before : nat -> nat -> bool) (Hord : strict_total before) (und unique : bool).

  (** Values in order, identities distinct and below the number of nodes *)
  Definition sinv (l : list (Z * nat)) : Prop :=
    StronglySorted Z.lt (map fst l) /\ NoDup (map snd l) /\ Forall (fun n => snd n < length l) l.

  Lemma insert_spec x h l : forall l' k, insert x h l = (l', k) ->
    StronglySorted Z.lt (map fst l) -> ~ In h (map snd l) -> NoDup (map snd l) ->
    StronglySorted Z.lt (map fst l') /\ NoDup (map snd l') /\ In (x, k) l' /\ incl l l' /\
    (forall n, In n l' -> In n l \/ n = (x, k)) /\
    (In x (map fst l) -> l' = l) /\ (~ In x (map fst l) -> k = h /\ length l' = S (length l)).
  Proof.
    induction l as [|[y k0] l IH]; intros l' k E SS NH ND; cbn [insert] in E.
    - injection E as <- <-. cbn. split; [repeat constructor|]. split; [repeat constructor; auto|].
      split; [auto|]. split; [intros ? []|]. split; [intros n [<-|[]]; auto|]. split; [tauto|auto].
    - cbn [map fst snd] in SS, NH, ND. inversion SS as [|? ? SS1 SS2]; subst.
      inversion ND as [|? ? ND1 ND2]; subst.
      destruct (Z.ltb_spec x y) as [D|D].
      + injection E as <- <-. cbn [map fst snd]. split; [|split; [|split; [|split; [|split; [|split]]]]].
        * constructor; [exact SS|]. constructor; [exact D|].
          eapply Forall_impl; [|exact SS2]. cbn. intros. lia.
        * constructor; [exact NH|exact ND].
        * now left.
        * intros n N. now right.
        * intros n [<-|N]; auto.
        * cbn [In]. intros [->|X]; [lia|]. rewrite Forall_forall in SS2. specialize (SS2 _ X). lia.
        * intros _. split; reflexivity.
      + destruct (Z.ltb_spec y x) as [D'|D'].
        * destruct (insert x h l) as [r' k'] eqn:EI. injection E as <- <-.
          destruct (IH r' k' eq_refl SS1 (fun X => NH (or_intror X)) ND2)
            as (A1 & A2 & A3 & A4 & A5 & A6 & A7).
          cbn [map fst snd]. split; [|split; [|split; [|split; [|split; [|split]]]]].
          -- constructor; [exact A1|]. rewrite Forall_forall. intros z Hz. apply in_map_iff in Hz as (n & <- & N).
             destruct (A5 n N) as [N'| ->]; [|exact D'].
             rewrite Forall_forall in SS2. apply SS2. now apply in_map.
          -- constructor; [|exact A2]. intro X. apply in_map_iff in X as (n & EN & N).
             destruct (A5 n N) as [N'| ->]; [apply ND1; rewrite <- EN; now apply in_map|].
             cbn [snd] in EN. subst k'.
             destruct (in_dec Z.eq_dec x (map fst l)) as [Y|Y].
             ++ rewrite (A6 Y) in A3. apply ND1. change k0 with (snd (x, k0)). now apply in_map.
             ++ destruct (A7 Y) as [-> _]. apply NH. now left.
          -- now right.
          -- intros n [<-|N]; [now left|right; now apply A4].
          -- intros n [<-|N]; [left; now left|]. destruct (A5 n N); [left; now right|now right].
          -- cbn [In]. intros [->|X]; [lia|]. now rewrite (A6 X).
          -- cbn [In length]. intro X. destruct (A7 (fun Y => X (or_intror Y))) as [-> ->]. auto.
        * assert (x = y) by lia. subst y. injection E as <- <-. cbn [map fst snd].
          split; [exact SS|]. split; [exact ND|]. split; [now left|]. split; [apply incl_refl|].
          split; [auto|]. split; [auto|]. intro X. exfalso. apply X. now left.
  Qed.

  Lemma add_vertex_spec l x l' k : sinv l -> add_vertex l x = (l', k) ->
    sinv l' /\ In (x, k) l' /\ incl l l' /\ (forall n, In n l' -> In n l \/ n = (x, k)).
  Proof.
    intros (SS & ND & B) E. unfold add_vertex in E.
    assert (NH : ~ In (length l) (map snd l)).
    { intro X. apply in_map_iff in X as (n & EN & N). rewrite Forall_forall in B.
      specialize (B n N). cbn in B. lia. }
    destruct (insert_spec x (length l) l l' k E SS NH ND) as (A1 & A2 & A3 & A4 & A5 & A6 & A7).
    split; [|auto]. split; [exact A1|]. split; [exact A2|].
    rewrite Forall_forall in *. intros n N.
    destruct (in_dec Z.eq_dec x (map fst l)) as [Y|Y].
    - rewrite (A6 Y) in *. now apply B.
    - destruct (A7 Y) as [-> ->]. destruct (A5 n N) as [N'| ->]; [specialize (B n N'); cbn in B; lia|].
      cbn. lia.
  Qed.

  Lemma s_read_spec (l : list (Z * nat)) h x : NoDup (map snd l) -> s_read l h = Ok x <-> In (x, h) l.
  Proof.
    induction l as [|[y k] l IH]; intro ND; cbn [s_read].
    - split; [discriminate|intros []].
    - cbn [map snd] in ND. inversion ND as [|? ? ND1 ND2]; subst. destruct (Nat.eqb_spec h k) as [->|D].
      + split; [intro E; injection E as ->; now left|]. intros [E|X]; [now injection E as ->|].
        exfalso. apply ND1. change k with (snd (x, k)). now apply in_map.
      + rewrite IH by exact ND2. split; [now right|]. intros [E|X]; [congruence|exact X].
  Qed.

  (** A request by values and the same request by identities *)
  Definition named (l : list (Z * nat)) (x : Z * Z * nat) (y : nat * nat * nat) : Prop :=
    In (fst (fst x), fst (fst y)) l /\ In (snd (fst x), snd (fst y)) l /\ snd x = snd y.

  Lemma named_more l l' x y : incl l l' -> named l x y -> named l' x y.
  Proof. intros I (A & B & C). split; [|split]; auto. Qed.

  Lemma unique_value (l : list (Z * nat)) x y h : NoDup (map snd l) -> In (x, h) l -> In (y, h) l -> x = y.
  Proof.
    intros ND A B. apply s_read_spec in A, B; auto. congruence.
  Qed.

  Lemma unique_identity (l : list (Z * nat)) x h k : StronglySorted Z.lt (map fst l) -> In (x, h) l -> In (x, k) l -> h = k.
  Proof.
    intros SS. induction l as [|[y j] l IH]; [intros []|]. cbn [map fst] in SS.
    inversion SS as [|? ? SS1 SS2]; subst. rewrite Forall_forall in SS2. intros [A|A] [B|B].
    - congruence.
    - injection A as -> ->. apply (in_map fst) in B. specialize (SS2 _ B). cbn in SS2. lia.
    - injection B as -> ->. apply (in_map fst) in A. specialize (SS2 _ A). cbn in SS2. lia.
    - now apply IH.
  Qed.

  Lemma joins_named l x y x' y' : sinv l -> named l x y -> named l x' y' ->
    joins und x x' <-> joins und y y'.
  Proof.
    intros (SS & ND & _) (A1 & A2 & _) (B1 & B2 & _).
    destruct x as [[x1 x2] xp], y as [[y1 y2] yp], x' as [[u1 u2] up], y' as [[v1 v2] vp].
    unfold joins. cbn [fst snd] in *.
    assert (W : forall a b h k, In (a, h) l -> In (b, k) l -> a = b <-> h = k).
    { intros a b h k H1 H2. split; intros ->; [eapply unique_identity | eapply unique_value]; eauto. }
    assert (P : forall A B (a c : A) (b d : B), (a, b) = (c, d) <-> a = c /\ b = d)
      by (intros; split; [intro E; injection E; auto | intros [-> ->]; auto]).
    rewrite !P, (W _ _ _ _ A1 B1), (W _ _ _ _ A2 B2), (W _ _ _ _ A1 B2), (W _ _ _ _ A2 B1). reflexivity.
  Qed.

  Lemma Exists_named l x y K K' : sinv l -> named l x y -> Forall2 (named l) K K' ->
    Exists (joins und x) K <-> Exists (joins und y) K'.
  Proof.
    intros SI N F. induction F as [|a b K K' NN F IH]; [split; intro H; inversion H|].
    rewrite !Exists_cons, IH, (joins_named l x y a b SI N NN). reflexivity.
  Qed.

  Definition sgood (g : sgraph) (K : list (Z * Z * nat)) : Prop :=
    sinv (s_vs g) /\ exists K', Forall2 (named (s_vs g)) K K' /\ Inv before und K' (s_es g).

  Definition s_reply (g : sgraph) (x : Z * Z * nat) (r : nat * nat * nat * bool) : Prop :=
    let '(a, b, i, nw) := r in
    exists y, named (s_vs g) x y /\ order before und (fst (fst y)) (snd (fst y)) = (a, b) /\
      exists q, nth_error (s_es g) i = Some (a, b, q) /\ (nw = true -> q = snd x).

  Lemma s_step_spec left g x y p K hs bs : sgood g K -> kept unique und hs K bs ->
    exists g' a b i nw K', s_add_values before und unique left g x y p = (g', (a, b, i, nw)) /\
      sgood g' K' /\ kept unique und (hs ++ [(x, y, p)]) K' (bs ++ [nw]) /\
      incl (s_vs g) (s_vs g') /\ (exists T, s_es g' = s_es g ++ T) /\
      (forall z, In z (map fst (s_vs g')) <-> In z (map fst (s_vs g)) \/ z = x \/ z = y) /\
      s_reply g' (x, y, p) (a, b, i, nw).
  Proof.
    intros (SI & K' & N & I) HK. unfold s_add_values.
    assert (VS : exists vs u v,
      (if left
       then let '(l1, u) := add_vertex (s_vs g) x in let '(l2, v) := add_vertex l1 y in (l2, u, v)
       else let '(l1, v) := add_vertex (s_vs g) y in let '(l2, u) := add_vertex l1 x in (l2, u, v))
      = (vs, u, v) /\ sinv vs /\ In (x, u) vs /\ In (y, v) vs /\ incl (s_vs g) vs /\
      (forall z, In z (map fst vs) <-> In z (map fst (s_vs g)) \/ z = x \/ z = y)).
    { assert (Gen : forall x y, exists l1 u l2 v, add_vertex (s_vs g) x = (l1, u) /\
        add_vertex l1 y = (l2, v) /\ sinv l2 /\ In (x, u) l2 /\ In (y, v) l2 /\ incl (s_vs g) l2 /\
        (forall z, In z (map fst l2) <-> In z (map fst (s_vs g)) \/ z = x \/ z = y)).
      { clear x y. intros x y. destruct (add_vertex (s_vs g) x) as [l1 u] eqn:E1.
        destruct (add_vertex l1 y) as [l2 v] eqn:E2.
        destruct (add_vertex_spec _ _ _ _ SI E1) as (S1 & A1 & I1 & C1).
        destruct (add_vertex_spec _ _ _ _ S1 E2) as (S2 & A2 & I2 & C2).
        exists l1, u, l2, v. split; [reflexivity|]. split; [exact E2|]. split; [exact S2|].
        split; [now apply I2|]. split; [exact A2|]. split; [eapply incl_tran; eauto|].
        intro z. split.
        - intro Z. apply in_map_iff in Z as (n & <- & Z). destruct (C2 n Z) as [Z'| ->]; [|auto].
          destruct (C1 n Z') as [Z''| ->]; [left; now apply in_map | auto].
        - intros [Z|[-> | ->]].
          + apply in_map_iff in Z as (n & <- & Z). apply in_map. now apply I2, I1.
          + change x with (fst (x, u)). apply in_map. now apply I2.
          + change y with (fst (y, v)). now apply in_map. }
      destruct left.
      - destruct (Gen x y) as (l1 & u & l2 & v & -> & -> & H). exists l2, u, v. split; [reflexivity|]. tauto.
      - destruct (Gen y x) as (l1 & v & l2 & u & -> & -> & H1 & H2 & H3 & H4 & H5).
        exists l2, u, v. split; [reflexivity|]. split; [exact H1|]. split; [exact H3|].
        split; [exact H2|]. split; [exact H4|]. intro z. rewrite H5. tauto. }
    destruct VS as (vs & u & v & -> & SI' & X & Y & IN & VA).
    assert (NM : named vs (x, y, p) (u, v, p)) by (split; [exact X | split; [exact Y | reflexivity]]).
    assert (N' : Forall2 (named vs) K K').
    { clear - N IN. induction N; constructor; auto. eapply named_more; eauto. }
    pose proof (order_cases before und Hord u v) as (a & b & EO & C & O).
    pose proof (existsb_joins Nat.eqb before und Nat.eqb_eq Hord u v p a b K' (s_es g) EO I) as EX.
    pose proof (Exists_named vs _ _ K K' SI' NM N') as EN.
    unfold try_add. rewrite EO.
    destruct (unique && existsb (same_ends Nat.eqb a b) (s_es g)) eqn:D.
    - apply andb_prop in D as [U D]. destruct (position_spec Nat.eqb Nat.eqb_eq a b _ D) as (q & Q).
      do 5 eexists. exists K. split; [reflexivity|]. split; [split; [exact SI'|exists K'; now split]|].
      split; [apply kept_out; [exact HK | exact U | apply EN, EX; exact D]|].
      split; [exact IN|]. split; [exists []; now rewrite app_nil_r|]. split; [exact VA|].
      exists (u, v, p). split; [exact NM|]. split; [exact EO|]. exists q. split; [exact Q|discriminate].
    - do 5 eexists. exists (K ++ [(x, y, p)]). split; [reflexivity|]. split; [split; [exact SI'|]|].
      + exists (K' ++ [(u, v, p)]). split; [apply Forall2_app; [exact N' | now constructor]|].
        destruct I as [F NF]. split; cbn [s_es].
        * apply Forall2_app; [exact F|]. constructor; [|constructor]. unfold stored. cbn [fst snd].
          split; [reflexivity|]. destruct C as [C|[U C]]; injection C as -> ->; auto.
        * apply Forall_app. split; [exact NF|]. constructor; [exact O|constructor].
      + split; [apply kept_in; [exact HK|]|].
        * apply andb_false_iff in D as [D|D]; [now left|right]. intro Z. apply EN, EX in Z. congruence.
        * split; [exact IN|]. split; [eexists; reflexivity|]. split; [exact VA|].
          exists (u, v, p). split; [exact NM|]. split; [exact EO|]. exists p. split; [|auto].
          cbn [s_es]. rewrite nth_error_app2 by apply Nat.le_refl. now rewrite Nat.sub_diag.
  Qed.

  Lemma s_reply_more g g' x r : incl (s_vs g) (s_vs g') -> (exists T, s_es g' = s_es g ++ T) ->
    s_reply g x r -> s_reply g' x r.
  Proof.
    destruct r as [[[a b] i] nw]. intros IN (T & ET) (y & N & O & q & Q & P).
    exists y. split; [eapply named_more; eauto|]. split; [exact O|]. exists q. split; [|exact P].
    rewrite ET, nth_error_app1; [exact Q|]. apply nth_error_Some. congruence.
  Qed.

  Lemma s_run_spec h : forall firsts g K hs bs, length firsts = length h ->
    sgood g K -> kept unique und hs K bs ->
    exists g' rs K', s_run before und unique g h firsts = (g', rs) /\ sgood g' K' /\
      kept unique und (hs ++ h) K' (bs ++ map snd rs) /\
      incl (s_vs g) (s_vs g') /\ (exists T, s_es g' = s_es g ++ T) /\
      (forall z, In z (map fst (s_vs g')) <->
         In z (map fst (s_vs g)) \/ exists x, In x h /\ (z = fst (fst x) \/ z = snd (fst x))) /\
      Forall2 (s_reply g') h rs.
  Proof.
    induction h as [|[[x y] p] h IH]; intros [|f firsts] g K hs bs L G HK; try discriminate.
    - exists g, [], K. cbn. rewrite !app_nil_r. split; [reflexivity|]. split; [exact G|].
      split; [exact HK|]. split; [apply incl_refl|]. split; [exists []; now rewrite app_nil_r|].
      split; [|constructor]. intro z. split; [now left|]. intros [Z|(? & [] & _)]. exact Z.
    - injection L as L.
      destruct (s_step_spec f g x y p K hs bs G HK)
        as (g1 & a & b & i & nw & K1 & E1 & G1 & HK1 & I1 & (T1 & ET1) & V1 & R1).
      destruct (IH firsts g1 K1 _ _ L G1 HK1)
        as (g2 & rs & K2 & E2 & G2 & HK2 & I2 & (T2 & ET2) & V2 & R2).
      exists g2, ((a, b, i, nw) :: rs), K2. cbn [s_run]. rewrite E1, E2.
      split; [reflexivity|]. split; [exact G2|]. rewrite <- !app_assoc in HK2.
      split; [exact HK2|]. split; [eapply incl_tran; eauto|].
      split; [exists (T1 ++ T2); now rewrite ET2, ET1, app_assoc|]. split.
      + intro z. rewrite V2, V1. split.
        * intros [[Z|Z]|(w & W & Z)]; [now left|right; exists (x, y, p); split; [now left|tauto]|].
          right. exists w. split; [now right|exact Z].
        * intros [Z|(w & [<-|W] & Z)]; [tauto|cbn in Z; tauto|]. right. now exists w.
      + constructor; [|exact R2]. eapply s_reply_more; eauto.
  Qed.
End Set_.

(** Reading the ends of an edge gives the values of the request, in some order if undirected. *)
Definition ends_read (und : bool) (g : sgraph) (u v : nat) (x : Z * Z * nat) : Prop :=
  exists a b, s_read (s_vs g) u = Ok a /\ s_read (s_vs g) v = Ok b /\
    ((a, b) = fst x \/ und = true /\ (b, a) = fst x).

Lemma named_read l x y : NoDup (map snd l) -> named l x y ->
  s_read l (fst (fst y)) = Ok (fst (fst x)) /\ s_read l (snd (fst y)) = Ok (snd (fst x)).
Proof. intros ND (A & B & _). split; now apply s_read_spec. Qed.

Lemma s_init_good before und : sgood before und s_init [].
Proof.
  split; [repeat constructor|]. exists []. split; constructor; constructor.
Qed.

(** Edges added by the values of their ends: for every order of the addresses of the nodes and every
    order of evaluation, the vertices are the values mentioned, each once, and the edges and answers
    are those of the requests. *)
Theorem C124_set before und unique h firsts : strict_total before -> length firsts = length h ->
  exists g rs K, s_run before und unique s_init h firsts = (g, rs) /\
    StronglySorted Z.lt (map fst (s_vs g)) /\
    (forall z, In z (map fst (s_vs g)) <->
       exists x, In x h /\ (z = fst (fst x) \/ z = snd (fst x))) /\
    kept unique und h K (map snd rs) /\
    Forall2 (fun x e => snd e = snd x /\ ends_read und g (fst (fst e)) (snd (fst e)) x) K (s_es g) /\
    Forall2 (fun x (r : nat * nat * nat * bool) =>
      let '(u, v, i, nw) := r in
      ends_read und g u v x /\
      exists q, nth_error (s_es g) i = Some (u, v, q) /\ (nw = true -> q = snd x)) h rs.
Proof.
  intros HO L. destruct (s_run_spec before HO und unique h firsts s_init [] [] [] L
    (s_init_good before und) (kept_nil _ _)) as (g & rs & K & E & (SI & K' & N & I) & HK & _ & _ & V & R).
  exists g, rs, K. split; [exact E|]. split; [apply SI|]. split.
  { intro z. rewrite V. cbn. tauto. }
  split; [exact HK|]. destruct SI as (_ & ND & _). split.
  - destruct I as [F _]. clear - N F ND. revert K N. induction F as [|y e K' l S F IH]; intros K N.
    + inversion N. constructor.
    + inversion N as [|x ? K0 ? N1 N2]; subst. constructor; [|now apply IH].
      destruct S as [S1 S2]. split; [rewrite S1; symmetry; apply N1|].
      destruct (named_read _ _ _ ND N1) as [A B]. destruct x as [[x1 x2] xp]. cbn [fst snd] in *.
      destruct S2 as [->|(U & -> & ->)]; [exists x1, x2|exists x2, x1]; auto.
  - clear - R ND. induction R as [|x [[[a b] i] nw] h rs (y & N & O & Q) R IH]; constructor; [|exact IH].
    split; [|exact Q]. destruct (named_read _ _ _ ND N) as [A B]. destruct x as [[x1 x2] xp].
    cbn [fst snd] in *. unfold order in O. destruct (und && _) eqn:C; injection O as <- <-.
    + apply andb_prop in C as [U _]. exists x2, x1. auto.
    + exists x1, x2. auto.
Qed.

(** Vertices stay valid: one seen after some requests has the same value after more of them. *)
Theorem C124_set_stable before und unique h1 h2 firsts1 firsts2 g1 rs1 g2 rs2 u x :
  strict_total before -> length firsts1 = length h1 -> length firsts2 = length h2 ->
  s_run before und unique s_init h1 firsts1 = (g1, rs1) ->
  s_run before und unique g1 h2 firsts2 = (g2, rs2) ->
  s_read (s_vs g1) u = Ok x -> s_read (s_vs g2) u = Ok x.
Proof.
  intros HO L1 L2 E1 E2 RD.
  destruct (s_run_spec before HO und unique h1 firsts1 s_init [] [] [] L1
    (s_init_good before und) (kept_nil _ _)) as (g & rs & K & E & G1 & HK & _).
  rewrite E in E1. injection E1 as -> ->.
  destruct (s_run_spec before HO und unique h2 firsts2 g1 K _ _ L2 G1 HK)
    as (g' & rs' & K2 & E' & G2 & _ & IN & _).
  rewrite E' in E2. injection E2 as -> ->.
  apply s_read_spec; [apply G2|]. apply IN. apply s_read_spec; [apply G1|exact RD].
Qed.

(** Writing to a vertex of a set leaves it out of order. *)
Theorem C124_set_write_refuted before und unique :
  let g := fst (s_run before und unique s_init [(1%Z, 2%Z, 7)] [true]) in
  let g' := s_write g 1 1%Z in
  s_read (s_vs g') 1 = Ok 1%Z /\ s_read (s_vs g') 0 = Ok 1%Z /\
  ~ StronglySorted Z.lt (map fst (s_vs g')).
Proof.
  assert (E : s_vs (fst (s_run before und unique s_init [(1%Z, 2%Z, 7)] [true])) = [(1%Z, 0); (2%Z, 1)]).
  { cbn. unfold try_add. destruct (order before und 0 1). cbn. now rewrite andb_false_r. }
  cbn zeta. unfold s_write. cbn [s_vs]. rewrite E. cbn.
  split; [reflexivity|]. split; [reflexivity|]. intro H. inversion H as [|? ? _ F]; subst.
  inversion F; lia.
Qed.

(** Only that vertex is written. *)
Theorem C124_set_write_one : forall g h x h',
  s_es (s_write g h x) = s_es g /\ map snd (s_vs (s_write g h x)) = map snd (s_vs g) /\
  (In h (map snd (s_vs g)) -> s_read (s_vs (s_write g h x)) h = Ok x) /\
  (h' <> h -> s_read (s_vs (s_write g h x)) h' = s_read (s_vs g) h').
Proof.
  intros g h x h'. unfold s_write. cbn [s_es s_vs]. split; [reflexivity|].
  induction (s_vs g) as [|[y k] l IH]; cbn; [repeat split; tauto|]. destruct IH as (I1 & I2 & I3).
  destruct (Nat.eqb_spec h k) as [<-|N]; cbn; rewrite I1.
  - split; [reflexivity|]. rewrite Nat.eqb_refl. split; [reflexivity|]. intros D. rewrite (proj2 (Nat.eqb_neq h' h) D). now apply I3.
  - split; [reflexivity|]. rewrite (proj2 (Nat.eqb_neq h k) N). split; [intros [->|I]; [congruence|now apply I2]|].
    intros D. destruct (Nat.eqb_spec h' k); [reflexivity|now apply I3].
Qed.
Print Assumptions C124_set_write_one.
Example C124_case_write_one : let g := {| s_vs := [(1%Z, 2); (4%Z, 0); (6%Z, 1)]; s_es := [(0, 1, 5)] |} in
  In 0 (map snd (s_vs g)) /\ s_vs (s_write g 0 9%Z) = [(1%Z, 2); (9%Z, 0); (6%Z, 1)].
Proof. cbn. auto. Qed.

(** ** Cases *)

Example C124_case_valid : all_ops op_valid 2
  [WEdge 0 2 5; WVertex 4; WWrite 2 9; WEdge 2 0 6; WEdge 4 1 8; WResize 6]%Z.
Proof.
  intros h1 o h2 E. do 6 (destruct h1 as [|? h1]; [injection E as <- _; cbn; try lia; exact I
    | injection E as <- E]). destruct h1; discriminate.
Qed.

Example C124_case :
  w_run true true (w_init 2)
    [WEdge 0 2 5; WVertex 4; WWrite 2 9; WEdge 2 0 6; WEdge 4 1 8; WResize 6]%Z
  = Ok ({| w_vs := [0; 0; 9; 4; 0; 0]; w_es := [(0%Z, 2%Z, 5); (1%Z, 4%Z, 8)] |},
        [REdge (0%Z, 2%Z, 0, true); RVertex 3; RNone; REdge (0%Z, 2%Z, 0, false);
         REdge (1%Z, 4%Z, 1, true); RNone]).
Proof. reflexivity. Qed.

Example C124_case_grows : all_ops op_grows 2
  [WEdge 0 2 5; WVertex 4; WWrite 2 9; WEdge 2 0 6; WEdge 4 1 8; WResize 6]%Z.
Proof.
  intros h1 o h2 E. do 6 (destruct h1 as [|? h1]; [injection E as <- _; cbn; try lia; exact I
    | injection E as <- E]). destruct h1; discriminate.
Qed.

Lemma gtb_total : strict_total (fun a b => b <? a).
Proof.
  split; intros a b.
  - rewrite Nat.ltb_lt, Nat.ltb_ge. lia.
  - rewrite !Nat.ltb_ge. lia.
Qed.

(** Addresses that decrease *)
Example C124_case_set :
  s_run (fun a b => b <? a) true true s_init [(5%Z, 3%Z, 7); (3%Z, 5%Z, 8); (3%Z, 4%Z, 9)] [true; false; true]
  = ({| s_vs := [(3%Z, 1); (4%Z, 2); (5%Z, 0)]; s_es := [(1, 0, 7); (2, 1, 9)] |},
     [(1, 0, 0, true); (1, 0, 0, false); (2, 1, 1, true)]).
Proof. reflexivity. Qed.

Example C124_case_int_max : w_add_edge true true (w_init 1) 0 (2 ^ 31 - 1) 3 = UB.
Proof. reflexivity. Qed.

Print Assumptions C124_vector.
Print Assumptions C124_endpoints.
Print Assumptions C124_shrink_refuted.
Print Assumptions C124_negative_refuted.
Print Assumptions C124_int_max_refuted.
Print Assumptions C124_set.
Print Assumptions C124_set_stable.
Print Assumptions C124_set_write_refuted.
