(** Adjacency list and edge list: proofs about AdjModel.v. *)
From Coq Require Import ZArith List Bool Arith Lia Permutation.
From Verif Require Import Outcome AdjModel.
Import ListNotations.

(** * Specification *)

(** An insertion request: source, target, bundle. *)
Notation request := (nat * nat * nat)%type.
Definition rq_src (x : request) : nat := fst (fst x).
Definition rq_tgt (x : request) : nat := snd (fst x).

(** [x] joins [u] to [v] (in either direction when undirected). *)
Definition joins (und : bool) (u v : nat) (x : request) : bool :=
  ((rq_src x =? u) && (rq_tgt x =? v))
  || (und && (rq_src x =? v) && (rq_tgt x =? u)).

(** The requests that are accepted, in order: with unique edges a request is
    dropped when an accepted one already joins the same vertices. *)
Fixpoint accept (unique und : bool) (acc h : list request) : list request :=
  match h with
  | [] => acc
  | x :: r =>
      if unique && existsb (joins und (rq_src x) (rq_tgt x)) acc
      then accept unique und acc r
      else accept unique und (acc ++ [x]) r
  end.

(** Number of vertices needed by a list of requests. *)
Fixpoint needed (n : nat) (h : list request) : nat :=
  match h with
  | [] => n
  | x :: r => needed (Nat.max n (S (Nat.max (rq_src x) (rq_tgt x)))) r
  end.

(** Edges leaving [u], in order: (source, target, bundle). *)
Definition spec_out (und : bool) (l : list request) (u : nat) : list request :=
  flat_map (fun x : request =>
    if rq_src x =? u then [x]
    else if und && (rq_tgt x =? u) then [(u, rq_src x, snd x)]
    else []) l.

(** Edges entering [u], in order. *)
Definition spec_in (und : bool) (l : list request) (u : nat) : list request :=
  flat_map (fun x : request =>
    if und then
      if rq_src x =? u then [(rq_tgt x, u, snd x)]
      else if rq_tgt x =? u then [x] else []
    else if rq_tgt x =? u then [x] else []) l.

(** End points of an undirected edge are reported in increasing order. *)
Definition normal (und : bool) (x : request) : request :=
  if und && (rq_tgt x <? rq_src x) then (rq_tgt x, rq_src x, snd x) else x.

(** * Vertex tables given by functions *)

Definition mk (n : nat) (fo fi : nat -> list entry) (el : list (edge_vertices * nat)) : graph :=
  {| g_vertices := map (fun u => {| vd_outs := fo u; vd_ins := fi u |}) (seq 0 n);
     g_edges := el |}.

Definition upd {A} (f : nat -> A) (u : nat) (a : A) (x : nat) : A :=
  if x =? u then a else f x.

Lemma upd_same {A} (f : nat -> A) u a : upd f u a u = a.
Proof. unfold upd. now rewrite Nat.eqb_refl. Qed.
Lemma upd_other {A} (f : nat -> A) u a x : x <> u -> upd f u a x = f x.
Proof. unfold upd. intro H. now apply Nat.eqb_neq in H as ->. Qed.

Lemma nth_error_map_seq {A} (f : nat -> A) n u :
  u < n -> nth_error (map f (seq 0 n)) u = Some (f u).
Proof.
  intro H. rewrite nth_error_map, nth_error_nth' with (d := 0) by now rewrite seq_length.
  simpl. now rewrite seq_nth.
Qed.

Lemma at_id_map_seq {A} (f : nat -> A) n u :
  u < n -> at_id (map f (seq 0 n)) u = Ok (f u).
Proof. intro H. unfold at_id. now rewrite nth_error_map_seq. Qed.

Lemma set_nth_length {A} (a : A) : forall l i, length (set_nth i a l) = length l.
Proof. induction l; destruct i; simpl; auto. Qed.

Lemma nth_error_set_nth {A} (a : A) : forall l i j,
  i < length l ->
  nth_error (set_nth i a l) j = if j =? i then Some a else nth_error l j.
Proof.
  induction l as [|x l IH]; simpl; intros i j H; [lia|].
  destruct i, j; simpl; auto. apply IH. lia.
Qed.

Lemma nth_error_ext {A} : forall l l' : list A,
  (forall i, nth_error l i = nth_error l' i) -> l = l'.
Proof.
  induction l as [|x l IH]; intros [|y l'] H.
  - reflexivity.
  - now specialize (H 0).
  - now specialize (H 0).
  - f_equal.
    + specialize (H 0). simpl in H. congruence.
    + apply IH. intro i. exact (H (S i)).
Qed.

Lemma set_nth_map_seq {A} (f : nat -> A) n u a :
  u < n -> set_nth u a (map f (seq 0 n)) = map (upd f u a) (seq 0 n).
Proof.
  intro H. apply nth_error_ext. intro i.
  rewrite nth_error_set_nth by now rewrite map_length, seq_length.
  destruct (lt_dec i n) as [L|L].
  - rewrite !nth_error_map_seq by assumption. unfold upd. now destruct (i =? u).
  - assert (E : (i =? u) = false) by (apply Nat.eqb_neq; lia). rewrite E.
    transitivity (@None A); [|symmetry]; apply nth_error_None;
      rewrite map_length, seq_length; lia.
Qed.

Lemma mk_ext n fo fo' fi fi' el el' :
  (forall u, u < n -> fo u = fo' u) -> (forall u, u < n -> fi u = fi' u) -> el = el' ->
  mk n fo fi el = mk n fo' fi' el'.
Proof.
  intros H1 H2 ->. unfold mk. f_equal. apply map_ext_in. intros u Hu.
  apply in_seq in Hu. rewrite H1, H2 by lia. reflexivity.
Qed.

Lemma outs_mk n fo fi el u : u < n -> outs (mk n fo fi el) u = Ok (fo u).
Proof. intro H. unfold outs, mk. simpl. now rewrite at_id_map_seq. Qed.
Lemma ins_mk n fo fi el u : u < n -> ins (mk n fo fi el) u = Ok (fi u).
Proof. intro H. unfold ins, mk. simpl. now rewrite at_id_map_seq. Qed.
Lemma outs_mk_none n fo fi el u : n <= u -> outs (mk n fo fi el) u = AssertFail.
Proof.
  intro H. unfold outs, mk, at_id. simpl.
  rewrite (proj2 (nth_error_None _ _)); [reflexivity|]. now rewrite map_length, seq_length.
Qed.
Lemma set_outs_mk n fo fi el u l :
  u < n -> set_outs (mk n fo fi el) u l = Ok (mk n (upd fo u l) fi el).
Proof.
  intro H. unfold set_outs, mk. simpl. rewrite at_id_map_seq by assumption. simpl.
  rewrite set_nth_map_seq by assumption. do 2 f_equal. apply map_ext. intro x.
  unfold upd. destruct (x =? u) eqn:E; [|reflexivity]. apply Nat.eqb_eq in E as ->. reflexivity.
Qed.
Lemma set_ins_mk n fo fi el u l :
  u < n -> set_ins (mk n fo fi el) u l = Ok (mk n fo (upd fi u l) el).
Proof.
  intro H. unfold set_ins, mk. simpl. rewrite at_id_map_seq by assumption. simpl.
  rewrite set_nth_map_seq by assumption. do 2 f_equal. apply map_ext. intro x.
  unfold upd. destruct (x =? u) eqn:E; [|reflexivity]. apply Nat.eqb_eq in E as ->. reflexivity.
Qed.
Lemma vertex_count_mk n fo fi el : vertex_count (mk n fo fi el) = n.
Proof. unfold vertex_count, mk. simpl. now rewrite map_length, seq_length. Qed.

(** * What is stored, as a function of the accepted requests (newest first) *)

Section Stored.
  Variable c : config.
  Notation und := (is_undirected c).

  Definition key (v : nat) : option nat := if has_out_vertex c then Some v else None.

  Fixpoint ent_out (R : list request) (u : nat) : list entry :=
    match R with
    | [] => []
    | (a, b, p) :: R' =>
        ent_out R' u ++
        let s := if sel_none c then p else length R' in
        if a =? u then [{| en_first := key b; en_second := s |}]
        else if und && (b =? u) then [{| en_first := key a; en_second := s |}]
        else []
    end.

  Fixpoint ent_in (R : list request) (u : nat) : list entry :=
    match R with
    | [] => []
    | (a, b, p) :: R' =>
        ent_in R' u ++
        if is_bidirectional c && (b =? u)
        then [{| en_first := key a;
                 en_second := if sel_none c then length (ent_out R' a) else length R' |}]
        else []
    end.

  Fixpoint ent_el (R : list request) : list (edge_vertices * nat) :=
    match R with
    | [] => []
    | (a, b, p) :: R' =>
        ent_el R' ++
        [(let '(s, t) := if und && (b <? a) then (b, a) else (a, b) in make_vertices c s t,
          if sel_none c then 0 else p)]
    end.

  Definition stored (n : nat) (R : list request) : graph :=
    mk n (ent_out R) (ent_in R) (ent_el R).

  Definition bounded (n : nat) (R : list request) : Prop :=
    Forall (fun x => rq_src x < n /\ rq_tgt x < n) R.

  Lemma ent_el_length R : length (ent_el R) = length R.
  Proof.
    induction R as [|[[a b] p] R IH]; simpl; [reflexivity|].
    rewrite app_length, IH. simpl. lia.
  Qed.

  Lemma ent_out_none R u : Forall (fun x => rq_src x <> u /\ rq_tgt x <> u) R -> ent_out R u = [].
  Proof.
    induction 1 as [|[[a b] p] R [H1 H2] _ IH]; [reflexivity|].
    unfold rq_src, rq_tgt in *. simpl in *.
    rewrite IH. apply Nat.eqb_neq in H1 as ->. apply Nat.eqb_neq in H2 as ->.
    now rewrite andb_false_r.
  Qed.
  Lemma ent_in_none R u : Forall (fun x => rq_src x <> u /\ rq_tgt x <> u) R -> ent_in R u = [].
  Proof.
    induction 1 as [|[[a b] p] R [H1 H2] _ IH]; [reflexivity|].
    unfold rq_src, rq_tgt in *. simpl in *.
    rewrite IH. apply Nat.eqb_neq in H2 as ->.
    now rewrite andb_false_r.
  Qed.

  Lemma stored_reserve n R u v :
    bounded n R ->
    reserve_vertices (stored n R) u v = stored (Nat.max n (S (Nat.max u v))) R.
  Proof.
    intro B. unfold reserve_vertices, stored. rewrite vertex_count_mk.
    destruct (n <=? Nat.max u v) eqn:E.
    - apply Nat.leb_le in E.
      replace (Nat.max n (S (Nat.max u v))) with (n + (S (Nat.max u v) - n)) by lia.
      set (k := S (Nat.max u v) - n). unfold mk. simpl. f_equal.
      rewrite seq_app, map_app. f_equal. simpl.
      assert (G : forall k s, n <= s -> repeat {| vd_outs := []; vd_ins := [] |} k =
                map (fun w => {| vd_outs := ent_out R w; vd_ins := ent_in R w |}) (seq s k)).
      { clear k. induction k as [|k IH]; intros s L; simpl; [reflexivity|].
        rewrite (IH (S s)) by lia. f_equal.
        assert (F : Forall (fun x => rq_src x <> s /\ rq_tgt x <> s) R).
        { eapply Forall_impl; [|exact B]. simpl. intros x [? ?]. lia. }
        now rewrite ent_out_none, ent_in_none. }
      apply G. lia.
    - apply Nat.leb_gt in E. replace (Nat.max n (S (Nat.max u v))) with n by lia. reflexivity.
  Qed.

  (** Keys of a unique out-list. *)
  Lemma has_key_joins R u v :
    c_unique c = true ->
    existsb (has_key v) (ent_out R u) = existsb (joins und u v) R.
  Proof.
    intro U. assert (K : forall w, key w = Some w).
    { intro w. unfold key, has_out_vertex. now rewrite U. }
    induction R as [|[[a b] p] R IH]; [reflexivity|].
    simpl. rewrite existsb_app, IH, orb_comm. f_equal.
    unfold joins, rq_src, rq_tgt. simpl.
    destruct (a =? u) eqn:E1; simpl.
    - unfold has_key; simpl; rewrite K. apply Nat.eqb_eq in E1 as ->.
      destruct (b =? v) eqn:E2; simpl; [reflexivity|].
      destruct und; simpl; [|reflexivity].
      destruct (u =? v) eqn:E3; simpl; [|reflexivity].
      apply Nat.eqb_eq in E3 as ->. now rewrite E2.
    - destruct und; simpl; [|reflexivity].
      destruct (b =? u) eqn:E2; simpl.
      + unfold has_key; simpl; rewrite K.
        now rewrite andb_true_r, orb_false_r.
      + now rewrite andb_false_r.
  Qed.

  Lemma has_key_in R u v :
    c_unique c = true -> is_bidirectional c = true ->
    existsb (has_key u) (ent_in R v) = existsb (joins und u v) R.
  Proof.
    intros U Bi. assert (K : forall w, key w = Some w).
    { intro w. unfold key, has_out_vertex. now rewrite U. }
    assert (Un : und = false) by (revert Bi; unfold is_bidirectional, is_undirected; now destruct (c_dir c)).
    induction R as [|[[a b] p] R IH]; [reflexivity|].
    simpl. rewrite existsb_app, IH, orb_comm. f_equal.
    unfold joins, rq_src, rq_tgt. simpl. rewrite Bi, Un. simpl.
    destruct (b =? v) eqn:E1; simpl.
    - unfold has_key; simpl; rewrite K. now rewrite andb_true_r.
    - now rewrite andb_false_r.
  Qed.

  Lemma joins_sym u v R : und = true -> existsb (joins und u v) R = existsb (joins und v u) R.
  Proof.
    intros ->. induction R as [|[[a b] p] R IH]; [reflexivity|].
    simpl. rewrite IH. f_equal. unfold joins, rq_src, rq_tgt. simpl. apply orb_comm.
  Qed.

  (** One insertion. *)
  Definition refused (R : list request) (u v : nat) : bool :=
    c_unique c && existsb (joins und u v) R.

  Definition result_edge (R : list request) (u v : nat) : edge :=
    {| e_source := u; e_target := v;
       e_bundle := if sel_none c then length (ent_out R u) else length R |}.

  Lemma id_emplace_out R u v b :
    id_emplace c (ent_out R u) v b =
    if refused R u v
    then (ent_out R u, (find_key v (ent_out R u), false))
    else (ent_out R u ++ [{| en_first := key v; en_second := b |}],
          (length (ent_out R u), true)).
  Proof.
    unfold id_emplace, refused. destruct (c_unique c) eqn:U; simpl; [|reflexivity].
    rewrite has_key_joins by assumption. reflexivity.
  Qed.

  Lemma id_emplace_in R u v b :
    is_bidirectional c = true -> refused R u v = false ->
    fst (id_emplace c (ent_in R v) u b) = ent_in R v ++ [{| en_first := key u; en_second := b |}].
  Proof.
    intros Bi F. unfold id_emplace, refused in *. destruct (c_unique c) eqn:U; simpl in *; [|reflexivity].
    rewrite has_key_in by assumption. rewrite F. reflexivity.
  Qed.

  Lemma set_second_last l x b :
    set_second (l ++ [x]) (length l) b = Ok (l ++ [{| en_first := en_first x; en_second := b |}]).
  Proof.
    unfold set_second, at_id. rewrite nth_error_app2, Nat.sub_diag by lia. simpl. f_equal.
    induction l as [|y l IH]; [reflexivity|]. simpl. now rewrite IH.
  Qed.

  Theorem try_add_edge_stored e0 n R u v p :
    bounded n R ->
    let n' := Nat.max n (S (Nat.max u v)) in
    try_add_edge c e0 (stored n R) u v p =
    if refused R u v then Ok (stored n' R, (default_edge, false))
    else Ok (stored n' ((u, v, p) :: R), (result_edge R u v, true)).
  Proof.
    intros B n'. unfold try_add_edge. rewrite stored_reserve by assumption. fold n'.
    assert (Lu : u < n') by (unfold n'; lia). assert (Lv : v < n') by (unfold n'; lia).
    unfold result_edge. destruct (sel_none c) eqn:SN.
    - unfold try_add_edge_none, stored. rewrite outs_mk by assumption. cbn [bind].
      rewrite id_emplace_out. destruct (refused R u v) eqn:RF; [reflexivity|].
      cbn [negb]. rewrite set_outs_mk by assumption. cbn [bind].
      cbn [mk g_vertices g_edges].
      change {| g_vertices := map ?f (seq 0 n'); g_edges := ?e |} with
        (mk n' (upd (ent_out R) u (ent_out R u ++ [{| en_first := key v; en_second := p |}])) (ent_in R) e).
      assert (EL : fst (el_add_edge c (ent_el R) u v 0) = ent_el ((u, v, p) :: R)).
      { unfold el_add_edge. cbn [ent_el]. rewrite SN.
        now destruct (und && (v <? u)). }
      rewrite EL.
      destruct und eqn:Un.
      + destruct (u =? v) eqn:Euv.
        * cbn [bind]. apply Nat.eqb_eq in Euv as <-. do 2 f_equal.
          apply mk_ext; [| |reflexivity]; intros w Hw.
          -- unfold upd. cbn [ent_out]. rewrite SN, Un, (Nat.eqb_sym u w). simpl.
             destruct (w =? u) eqn:E; [|now rewrite app_nil_r].
             apply Nat.eqb_eq in E as ->. reflexivity.
          -- cbn [ent_in].
             replace (is_bidirectional c) with false
               by (revert Un; unfold is_bidirectional, is_undirected; now destruct (c_dir c)).
             simpl. now rewrite app_nil_r.
        * rewrite outs_mk by assumption. cbn [bind].
          assert (Nvu : v <> u) by (apply Nat.eqb_neq in Euv; congruence).
          rewrite upd_other by assumption. rewrite id_emplace_out.
          replace (refused R v u) with false
            by (rewrite <- RF; unfold refused; now rewrite joins_sym).
          cbn [fst]. rewrite set_outs_mk by assumption. cbn [bind]. do 2 f_equal.
          apply mk_ext; [| |reflexivity]; intros w Hw.
          -- unfold upd. cbn [ent_out]. rewrite SN, Un, (Nat.eqb_sym u w), (Nat.eqb_sym v w).
             cbn [andb]. destruct (w =? v) eqn:E1.
             ++ apply Nat.eqb_eq in E1 as ->. apply Nat.eqb_neq in Nvu as ->. reflexivity.
             ++ destruct (w =? u) eqn:E; [|now rewrite app_nil_r].
                apply Nat.eqb_eq in E as ->. reflexivity.
          -- cbn [ent_in].
             replace (is_bidirectional c) with false
               by (revert Un; unfold is_bidirectional, is_undirected; now destruct (c_dir c)).
             simpl. now rewrite app_nil_r.
      + destruct (is_bidirectional c) eqn:Bi.
        * rewrite ins_mk by assumption. cbn [bind].
          rewrite id_emplace_in by assumption.
          rewrite set_ins_mk by assumption. cbn [bind]. do 2 f_equal.
          apply mk_ext; [| |reflexivity]; intros w Hw.
          -- unfold upd. cbn [ent_out]. rewrite SN, Un, (Nat.eqb_sym u w). cbn [andb].
             destruct (w =? u) eqn:E; [|now rewrite app_nil_r].
             apply Nat.eqb_eq in E as ->. reflexivity.
          -- unfold upd. cbn [ent_in]. rewrite SN, Bi, (Nat.eqb_sym v w). cbn [andb].
             destruct (w =? v) eqn:E; [|now rewrite app_nil_r].
             apply Nat.eqb_eq in E as ->. reflexivity.
        * cbn [bind]. do 2 f_equal.
          apply mk_ext; [| |reflexivity]; intros w Hw.
          -- unfold upd. cbn [ent_out]. rewrite SN, Un, (Nat.eqb_sym u w). cbn [andb].
             destruct (w =? u) eqn:E; [|now rewrite app_nil_r].
             apply Nat.eqb_eq in E as ->. reflexivity.
          -- cbn [ent_in]. rewrite Bi. simpl. now rewrite app_nil_r.
    - unfold try_add_edge_ec, stored. rewrite outs_mk by assumption. cbn [bind].
      rewrite id_emplace_out. destruct (refused R u v) eqn:RF; [reflexivity|].
      cbn [negb]. rewrite set_outs_mk by assumption. cbn [bind].
      cbn [mk g_vertices g_edges].
      assert (EL : el_add_edge c (ent_el R) u v p = (ent_el ((u, v, p) :: R), length R)).
      { unfold el_add_edge. cbn [ent_el]. rewrite SN, ent_el_length.
        now destruct (und && (v <? u)). }
      rewrite EL.
      change {| g_vertices := map ?f (seq 0 n'); g_edges := ?e |} with
        (mk n' (upd (ent_out R) u (ent_out R u ++ [{| en_first := key v; en_second := e0 |}])) (ent_in R) e).
      rewrite outs_mk by assumption. cbn [bind]. rewrite upd_same, set_second_last.
      cbn [bind en_first]. rewrite set_outs_mk by assumption. cbn [bind].
      set (F := upd (upd (ent_out R) u _) u _).
      assert (HF : forall w, F w = upd (ent_out R) u (ent_out R u ++ [{| en_first := key v; en_second := length R |}]) w).
      { intro w. unfold F, upd. now destruct (w =? u). }
      destruct und eqn:Un.
      + destruct (u =? v) eqn:Euv.
        * cbn [bind]. apply Nat.eqb_eq in Euv as <-. do 2 f_equal.
          apply mk_ext; [| |reflexivity]; intros w Hw.
          -- rewrite HF. unfold upd. cbn [ent_out]. rewrite SN, Un, (Nat.eqb_sym u w). simpl.
             destruct (w =? u) eqn:E; [|now rewrite app_nil_r].
             apply Nat.eqb_eq in E as ->. reflexivity.
          -- cbn [ent_in].
             replace (is_bidirectional c) with false
               by (revert Un; unfold is_bidirectional, is_undirected; now destruct (c_dir c)).
             simpl. now rewrite app_nil_r.
        * rewrite outs_mk by assumption. cbn [bind].
          assert (Nvu : v <> u) by (apply Nat.eqb_neq in Euv; congruence).
          rewrite HF, upd_other by assumption. rewrite id_emplace_out.
          replace (refused R v u) with false
            by (rewrite <- RF; unfold refused; now rewrite joins_sym).
          cbn [fst]. rewrite set_outs_mk by assumption. cbn [bind]. do 2 f_equal.
          apply mk_ext; [| |reflexivity]; intros w Hw.
          -- unfold upd at 1. rewrite HF. unfold upd. cbn [ent_out].
             rewrite SN, Un, (Nat.eqb_sym u w), (Nat.eqb_sym v w).
             cbn [andb]. destruct (w =? v) eqn:E1.
             ++ apply Nat.eqb_eq in E1 as ->. apply Nat.eqb_neq in Nvu as ->. reflexivity.
             ++ destruct (w =? u) eqn:E; [|now rewrite app_nil_r].
                apply Nat.eqb_eq in E as ->. reflexivity.
          -- cbn [ent_in].
             replace (is_bidirectional c) with false
               by (revert Un; unfold is_bidirectional, is_undirected; now destruct (c_dir c)).
             simpl. now rewrite app_nil_r.
      + assert (HO : forall w, w < n' -> F w = ent_out ((u, v, p) :: R) w).
        { intros w Hw. rewrite HF. unfold upd. cbn [ent_out]. rewrite SN, Un, (Nat.eqb_sym u w). cbn [andb].
          destruct (w =? u) eqn:E; [|now rewrite app_nil_r].
          apply Nat.eqb_eq in E as ->. reflexivity. }
        destruct (is_bidirectional c) eqn:Bi.
        * rewrite ins_mk by assumption. cbn [bind].
          rewrite id_emplace_in by assumption.
          rewrite set_ins_mk by assumption. cbn [bind]. do 2 f_equal.
          apply mk_ext; [exact HO| |reflexivity]; intros w Hw.
          unfold upd. cbn [ent_in]. rewrite SN, Bi, (Nat.eqb_sym v w). cbn [andb].
          destruct (w =? v) eqn:E; [|now rewrite app_nil_r].
          apply Nat.eqb_eq in E as ->. reflexivity.
        * cbn [bind]. do 2 f_equal.
          apply mk_ext; [exact HO| |reflexivity]; intros w Hw.
          cbn [ent_in]. rewrite Bi. simpl. now rewrite app_nil_r.
  Qed.
End Stored.

(** * Reading the stored graph *)

Lemma collect_ext {A B} (f g : A -> outcome B) l :
  (forall x, In x l -> f x = g x) -> collect f l = collect g l.
Proof.
  induction l as [|x l IH]; intro H; [reflexivity|]. simpl.
  rewrite H by now left. rewrite IH by (intros; apply H; now right). reflexivity.
Qed.

Lemma collect_ok {A B} (f : A -> outcome B) (g : A -> B) l :
  (forall x, In x l -> f x = Ok (g x)) -> collect f l = Ok (map g l).
Proof.
  induction l as [|x l IH]; intro H; [reflexivity|]. simpl.
  rewrite H by now left. simpl. rewrite IH by (intros; apply H; now right). reflexivity.
Qed.

Lemma collect_app {A B} (f : A -> outcome B) l1 l2 r1 r2 :
  collect f l1 = Ok r1 -> collect f l2 = Ok r2 -> collect f (l1 ++ l2) = Ok (r1 ++ r2).
Proof.
  revert r1. induction l1 as [|x l IH]; simpl; intros r1 H1 H2.
  - injection H1 as <-. assumption.
  - apply bind_Ok in H1 as (y & Hy & H1). apply bind_Ok in H1 as (s & Hs & H1).
    injection H1 as <-. rewrite Hy. simpl. now rewrite (IH s).
Qed.

Lemma collect_length {A B} (f : A -> outcome B) : forall l r, collect f l = Ok r -> length r = length l.
Proof.
  induction l as [|x l IH]; simpl; intros r H.
  - now injection H as <-.
  - apply bind_Ok in H as (y & Hy & H). apply bind_Ok in H as (s & Hs & H).
    injection H as <-. simpl. f_equal. auto.
Qed.

(** Elements with their positions. *)
Fixpoint imap {A B} (g : nat -> A -> B) (s : nat) (l : list A) : list B :=
  match l with [] => [] | x :: r => g s x :: imap g (S s) r end.

Lemma imap_length {A B} (g : nat -> A -> B) l : forall s, length (imap g s l) = length l.
Proof. induction l; simpl; auto. Qed.

Lemma imap_nth {A B} (g : nat -> A -> B) l : forall s k,
  nth_error (imap g s l) k = option_map (g (s + k)) (nth_error l k).
Proof.
  induction l as [|x l IH]; intros s [|k]; simpl; try reflexivity.
  - now rewrite Nat.add_0_r.
  - rewrite IH. f_equal. f_equal. lia.
Qed.

Lemma imap_app {A B} (g : nat -> A -> B) l1 l2 : forall s,
  imap g s (l1 ++ l2) = imap g s l1 ++ imap g (s + length l1) l2.
Proof.
  induction l1 as [|x l IH]; intro s; simpl.
  - now rewrite Nat.add_0_r.
  - rewrite IH. do 2 f_equal. f_equal. lia.
Qed.

Lemma map_imap {A B C} (f : B -> C) (g : nat -> A -> B) l : forall s,
  map f (imap g s l) = imap (fun k x => f (g k x)) s l.
Proof. induction l; simpl; intro; f_equal; auto. Qed.

Lemma imap_ext {A B} (g h : nat -> A -> B) l : forall s,
  (forall k x, nth_error l k = Some x -> g (s + k) x = h (s + k) x) -> imap g s l = imap h s l.
Proof.
  induction l as [|x l IH]; intros s H; [reflexivity|]. simpl. f_equal.
  - specialize (H 0 x eq_refl). now rewrite Nat.add_0_r in H.
  - apply IH. intros k y Hk. specialize (H (S k) y Hk).
    now replace (S s + k) with (s + S k) by lia.
Qed.

Lemma imap_const {A B} (g : A -> B) l : forall s, imap (fun _ x => g x) s l = map g l.
Proof. induction l; simpl; intro; f_equal; auto. Qed.

Lemma collect_seq {A B} (f : nat -> outcome B) (g : nat -> A -> B) : forall l s,
  (forall k x, nth_error l k = Some x -> f (s + k) = Ok (g (s + k) x)) ->
  collect f (seq s (length l)) = Ok (imap g s l).
Proof.
  induction l as [|x l IH]; intros s H; [reflexivity|]. simpl.
  generalize (H 0 x eq_refl). rewrite Nat.add_0_r. intros ->. simpl.
  rewrite (IH (S s)); [reflexivity|].
  intros k y Hk. specialize (H (S k) y Hk). now replace (S s + k) with (s + S k) by lia.
Qed.

Section Read.
  Variable c : config.
  Notation und := (is_undirected c).

  Definition item := (nat * nat * nat)%type.  (** other end, bundle, index *)
  Definition it_tgt (x : item) : nat := fst (fst x).
  Definition it_prop (x : item) : nat := snd (fst x).
  Definition it_idx (x : item) : nat := snd x.

  Fixpoint it_out (R : list request) (u : nat) : list item :=
    match R with
    | [] => []
    | (a, b, p) :: R' =>
        it_out R' u ++
        if a =? u then [(b, p, length R')]
        else if und && (b =? u) then [(a, p, length R')] else []
    end.

  Lemma ent_out_items R u :
    ent_out c R u = map (fun x => {| en_first := key c (it_tgt x);
                                     en_second := if sel_none c then it_prop x else it_idx x |})
                        (it_out R u).
  Proof.
    induction R as [|[[a b] p] R IH]; [reflexivity|]. simpl.
    rewrite map_app, IH. f_equal. destruct (a =? u); [reflexivity|].
    now destruct (und && (b =? u)).
  Qed.

  Lemma spec_out_items R u :
    spec_out und (rev R) u = map (fun x => (u, it_tgt x, it_prop x)) (it_out R u).
  Proof.
    unfold spec_out. induction R as [|[[a b] p] R IH]; [reflexivity|]. simpl.
    rewrite flat_map_app, map_app, IH. f_equal. simpl. rewrite app_nil_r.
    unfold rq_src, rq_tgt. simpl. destruct (a =? u) eqn:E.
    - apply Nat.eqb_eq in E as ->. reflexivity.
    - now destruct (und && (b =? u)).
  Qed.

  Lemma it_out_inv R u x :
    In x (it_out R u) ->
    exists a b, nth_error (rev R) (it_idx x) = Some (a, b, it_prop x) /\
      ((a = u /\ b = it_tgt x) \/ (und = true /\ a = it_tgt x /\ b = u)).
  Proof.
    induction R as [|[[a b] p] R IH]; [contradiction|]. simpl.
    rewrite in_app_iff. intros [H|H].
    - destruct (IH H) as (a' & b' & H1 & H2). exists a', b'. split; [|assumption].
      rewrite nth_error_app1; [assumption|]. apply nth_error_Some. congruence.
    - exists a, b. destruct (a =? u) eqn:E1.
      + destruct H as [<-|[]]. unfold it_idx, it_prop, it_tgt. simpl.
        apply Nat.eqb_eq in E1. rewrite nth_error_app2, rev_length, Nat.sub_diag by now rewrite rev_length.
        simpl. auto.
      + destruct (und && (b =? u)) eqn:E2; [|contradiction].
        destruct H as [<-|[]]. unfold it_idx, it_prop, it_tgt. simpl.
        apply andb_prop in E2 as [? E2]. apply Nat.eqb_eq in E2.
        rewrite nth_error_app2, rev_length, Nat.sub_diag by now rewrite rev_length.
        simpl. auto.
  Qed.

  Definition el_of (x : request) : edge_vertices * nat :=
    (let '(s, t) := if und && (rq_tgt x <? rq_src x) then (rq_tgt x, rq_src x)
                    else (rq_src x, rq_tgt x) in make_vertices c s t,
     if sel_none c then 0 else snd x).

  Lemma ent_el_map R : ent_el c R = map el_of (rev R).
  Proof.
    induction R as [|[[a b] p] R IH]; [reflexivity|]. simpl.
    now rewrite map_app, IH.
  Qed.

  Lemma other_end a b p u t :
    has_out_vertex c = false ->
    ((a = u /\ b = t) \/ ((und = true \/ is_bidirectional c = true) /\ a = t /\ b = u)) ->
    other (fst (el_of (a, b, p))) u = t.
  Proof.
    intros HV H. unfold el_of, rq_src, rq_tgt. cbn [fst snd].
    assert (X : forall s r, (s = a /\ r = b) \/ (s = b /\ r = a) ->
                (s = u /\ r = t) \/ (s = t /\ r = u)).
    { intros s r. destruct H as [[-> ->]|[_ [-> ->]]]; intros [[-> ->]|[-> ->]]; auto. }
    assert (Y : forall s r, (s = u /\ r = t) \/ (s = t /\ r = u) ->
                Nat.lxor u (Nat.lxor s r) = t).
    { intros s r [[-> ->]|[-> ->]].
      - now rewrite <- Nat.lxor_assoc, Nat.lxor_nilpotent, Nat.lxor_0_l.
      - rewrite (Nat.lxor_comm t u).
        now rewrite <- Nat.lxor_assoc, Nat.lxor_nilpotent, Nat.lxor_0_l. }
    assert (Z : let '(s, r) := if und && (b <? a) then (b, a) else (a, b) in
                other (make_vertices c s r) u = t).
    { unfold make_vertices. unfold has_out_vertex in HV. apply orb_false_iff in HV as [_ HV].
      destruct (c_sel c); try discriminate.
      - destruct (c_dir c) eqn:D.
        + unfold is_undirected, is_bidirectional in *. rewrite D in *. simpl.
          destruct H as [[_ ->]|[[?|?] _]]; [reflexivity|discriminate|discriminate].
        + destruct (und && (b <? a)); simpl; apply Y, X; auto.
        + destruct (und && (b <? a)); simpl; apply Y, X; auto.
      - destruct (und && (b <? a)); simpl; rewrite Nat.lxor_assoc; apply Y, X; auto. }
    destruct (und && (b <? a)); exact Z.
  Qed.

  Definition oe_of (u k : nat) (x : item) : edge :=
    {| e_source := u; e_target := it_tgt x; e_bundle := if sel_none c then k else it_idx x |}.

  Definition oe (R : list request) (u : nat) : list edge := imap (oe_of u) 0 (it_out R u).

  Lemma el_stored n R i x :
    nth_error (rev R) i = Some x -> at_id (g_edges (stored c n R)) i = Ok (el_of x).
  Proof.
    intro H. unfold at_id, stored, mk. cbn [g_edges].
    rewrite ent_el_map, nth_error_map, H. reflexivity.
  Qed.

  Lemma get_edge_stored n R u k x :
    u < n -> nth_error (it_out R u) k = Some x ->
    get_edge c (stored c n R) u k = Ok (oe_of u k x).
  Proof.
    intros Lu Hk. unfold get_edge. unfold stored at 1. rewrite outs_mk by assumption.
    cbn [bind]. unfold at_id at 1. rewrite ent_out_items, nth_error_map, Hk. cbn [option_map bind].
    unfold oe_of. destruct (sel_none c) eqn:SN; cbn [en_first].
    - unfold key. replace (has_out_vertex c) with true; [reflexivity|].
      unfold has_out_vertex. unfold sel_none in SN. destruct (c_sel c); try discriminate.
      now rewrite orb_true_r.
    - unfold get_edge_data. cbn [en_first en_second]. unfold key.
      destruct (has_out_vertex c) eqn:HV; [reflexivity|].
      apply nth_error_In in Hk. destruct (it_out_inv R u x Hk) as (a & b & H1 & H2).
      rewrite (el_stored n R _ _ H1). cbn [bind].
      rewrite (other_end a b (it_prop x) u (it_tgt x)); [reflexivity|assumption|].
      destruct H2 as [?|[? ?]]; auto.
  Qed.

  Lemma out_edges_stored n R u :
    u < n -> out_edges c (stored c n R) u = Ok (oe R u).
  Proof.
    intro Lu. unfold out_edges. unfold stored at 1. rewrite outs_mk by assumption. cbn [bind].
    rewrite ent_out_items, map_length. apply collect_seq.
    intros k x Hk. now apply get_edge_stored.
  Qed.

  Lemma bundle_stored n R u k x :
    u < n -> nth_error (it_out R u) k = Some x ->
    edge_bundle c (stored c n R) (oe_of u k x) = Ok (it_prop x).
  Proof.
    intros Lu Hk. unfold edge_bundle, oe_of. cbn [e_source e_bundle].
    destruct (sel_none c) eqn:SN.
    - unfold stored. rewrite outs_mk by assumption. cbn [bind]. unfold at_id.
      rewrite ent_out_items, nth_error_map, Hk. simpl. now rewrite SN.
    - apply nth_error_In in Hk. destruct (it_out_inv R u x Hk) as (a & b & H1 & H2).
      rewrite (el_stored n R _ _ H1). unfold el_of, omap. simpl. now rewrite SN.
  Qed.

  (** What a user sees of a list of edges: end points and bundle. *)
  Definition describe (g : graph) (l : list edge) : outcome (list request) :=
    collect (fun e => do p <- edge_bundle c g e; Ok (e_source e, e_target e, p)) l.

  Lemma collect_imap {A B C} (f : B -> outcome C) (g : nat -> A -> B) (h : A -> C) : forall l s,
    (forall k x, nth_error l k = Some x -> f (g (s + k) x) = Ok (h x)) ->
    collect f (imap g s l) = Ok (map h l).
  Proof.
    induction l as [|x l IH]; intros s H; [reflexivity|]. simpl.
    generalize (H 0 x eq_refl). rewrite Nat.add_0_r. intros ->. simpl.
    rewrite (IH (S s)); [reflexivity|].
    intros k y Hk. specialize (H (S k) y Hk). now replace (S s + k) with (s + S k) by lia.
  Qed.

  Lemma describe_out n R u :
    u < n -> describe (stored c n R) (oe R u) = Ok (spec_out und (rev R) u).
  Proof.
    intro Lu. rewrite spec_out_items. unfold describe, oe. apply collect_imap.
    intros k x Hk. simpl Nat.add. rewrite (bundle_stored n R u k x) by assumption. reflexivity.
  Qed.

  (** ** In-edges *)

  Fixpoint it_in (R : list request) (u : nat) : list item :=
    match R with
    | [] => []
    | (a, b, p) :: R' =>
        it_in R' u ++
        if b =? u then [(a, p, if sel_none c then length (it_out R' a) else length R')] else []
    end.

  Lemma ent_in_items R u :
    is_bidirectional c = true ->
    ent_in c R u = map (fun x => {| en_first := key c (it_tgt x); en_second := it_idx x |}) (it_in R u).
  Proof.
    intro Bi. induction R as [|[[a b] p] R IH]; [reflexivity|]. simpl.
    rewrite map_app, IH, Bi. f_equal. simpl. destruct (b =? u); [|reflexivity].
    simpl. unfold it_tgt, it_idx. simpl. destruct (sel_none c); [|reflexivity].
    now rewrite ent_out_items, map_length.
  Qed.

  Lemma spec_in_items R u :
    is_bidirectional c = true ->
    spec_in und (rev R) u = map (fun x => (it_tgt x, u, it_prop x)) (it_in R u).
  Proof.
    intro Bi. assert (Un : und = false) by (revert Bi; unfold is_bidirectional, is_undirected; now destruct (c_dir c)).
    unfold spec_in. rewrite Un.
    induction R as [|[[a b] p] R IH]; [reflexivity|]. simpl.
    rewrite flat_map_app, map_app, IH. f_equal. simpl. rewrite app_nil_r.
    unfold rq_tgt. simpl. destruct (b =? u) eqn:E; [|reflexivity].
    apply Nat.eqb_eq in E as ->. reflexivity.
  Qed.

  Lemma it_in_inv R u x :
    und = false -> In x (it_in R u) ->
    if sel_none c then
      exists i, nth_error (it_out R (it_tgt x)) (it_idx x) = Some (u, it_prop x, i)
    else nth_error (rev R) (it_idx x) = Some (it_tgt x, u, it_prop x).
  Proof.
    intro Un. induction R as [|[[a b] p] R IH]; [contradiction|]. simpl.
    rewrite in_app_iff. intros [H|H].
    - specialize (IH H). destruct (sel_none c).
      + destruct IH as [i IH]. exists i. rewrite nth_error_app1; [assumption|].
        apply nth_error_Some. congruence.
      + rewrite nth_error_app1; [assumption|]. apply nth_error_Some. congruence.
    - destruct (b =? u) eqn:E; [|contradiction]. apply Nat.eqb_eq in E as ->.
      destruct H as [<-|[]]. unfold it_tgt, it_idx, it_prop. cbn [fst snd].
      destruct (sel_none c).
      + exists (length R). rewrite nth_error_app2, Nat.sub_diag by lia.
        now rewrite Nat.eqb_refl.
      + rewrite nth_error_app2, rev_length, Nat.sub_diag by now rewrite rev_length. reflexivity.
  Qed.

  Definition ie_of (u : nat) (x : item) : edge :=
    {| e_source := it_tgt x; e_target := u; e_bundle := it_idx x |}.

  Lemma it_tgt_bound n R u x :
    bounded n R -> In x (it_in R u) -> it_tgt x < n.
  Proof.
    intro B. induction B as [|[[a b] p] R [B1 B2] B IH]; [contradiction|]. simpl.
    rewrite in_app_iff. intros [H|H]; [auto|].
    destruct (b =? u); [|contradiction]. destruct H as [<-|[]]. exact B1.
  Qed.

  Lemma in_edges_bidirectional n R u :
    is_bidirectional c = true -> bounded n R -> u < n ->
    in_edges c (stored c n R) u = Ok (map (ie_of u) (it_in R u)) /\
    describe (stored c n R) (map (ie_of u) (it_in R u)) = Ok (spec_in und (rev R) u).
  Proof.
    intros Bi B Lu. assert (Un : und = false) by (revert Bi; unfold is_bidirectional, is_undirected; now destruct (c_dir c)).
    split.
    - unfold in_edges. rewrite Un, Bi. unfold stored at 1. rewrite ins_mk by assumption. cbn [bind].
      rewrite (ent_in_items _ _ Bi). destruct (sel_none c) eqn:SN.
      + assert (HV : has_out_vertex c = true).
        { unfold has_out_vertex. unfold sel_none in SN. destruct (c_sel c); try discriminate.
          now rewrite orb_true_r. }
        rewrite (collect_ok _ (fun x => {| e_source := match en_first x with Some v => v | None => 0 end;
                                           e_target := u; e_bundle := en_second x |})).
        * rewrite map_map. unfold key. rewrite HV. reflexivity.
        * intros y Hy. apply in_map_iff in Hy as (x & <- & Hx). unfold key. rewrite HV. reflexivity.
      + rewrite (collect_ok _ (fun x => {| e_source := u;
                   e_target := match en_first x with
                               | Some v => v
                               | None => match at_id (g_edges (stored c n R)) (en_second x) with
                                         | Ok y => other (fst y) u | _ => 0 end end;
                   e_bundle := en_second x |})).
        * unfold omap. cbn [bind]. rewrite !map_map. f_equal. apply map_ext_in.
          intros x Hx. unfold edge_inverter, ie_of. cbn [e_source e_target e_bundle en_first en_second].
          unfold key. destruct (has_out_vertex c) eqn:HV; [reflexivity|].
          pose proof (it_in_inv R u x Un Hx) as I. rewrite SN in I.
          rewrite (el_stored n R _ _ I).
          rewrite (other_end (it_tgt x) u (it_prop x) u (it_tgt x)); auto.
        * intros y Hy. apply in_map_iff in Hy as (x & <- & Hx).
          unfold get_edge_data. cbn [en_first en_second]. unfold key.
          destruct (has_out_vertex c) eqn:HV; [reflexivity|].
          pose proof (it_in_inv R u x Un Hx) as I. rewrite SN in I.
          rewrite (el_stored n R _ _ I). reflexivity.
    - rewrite (spec_in_items _ _ Bi). unfold describe.
      rewrite (collect_ok _ (fun e => (e_source e, e_target e,
                 match edge_bundle c (stored c n R) e with Ok p => p | _ => 0 end))).
      + f_equal. rewrite map_map. apply map_ext_in. intros x Hx. unfold ie_of at 1 2. cbn [e_source e_target].
        f_equal. pose proof (it_in_inv R u x Un Hx) as I. unfold edge_bundle, ie_of. cbn [e_source e_bundle].
        destruct (sel_none c) eqn:SN.
        * destruct I as [i I]. unfold stored. rewrite outs_mk by eauto using it_tgt_bound.
          cbn [bind]. unfold at_id. rewrite ent_out_items, nth_error_map, I. simpl. now rewrite SN.
        * rewrite (el_stored n R _ _ I). unfold omap, el_of. simpl. now rewrite SN.
      + intros e He. apply in_map_iff in He as (x & <- & Hx).
        pose proof (it_in_inv R u x Un Hx) as I. unfold edge_bundle, ie_of. cbn [e_source e_bundle].
        destruct (sel_none c) eqn:SN.
        * destruct I as [i I]. unfold stored. rewrite outs_mk by eauto using it_tgt_bound.
          cbn [bind]. unfold at_id. rewrite ent_out_items, nth_error_map, I. reflexivity.
        * rewrite (el_stored n R _ _ I). reflexivity.
  Qed.

  Lemma spec_in_undirected R u :
    und = true ->
    spec_in und (rev R) u = map (fun x => (it_tgt x, u, it_prop x)) (it_out R u).
  Proof.
    intro Un. unfold spec_in. rewrite Un.
    induction R as [|[[a b] p] R IH]; [reflexivity|]. simpl.
    rewrite flat_map_app, map_app, IH. f_equal. simpl. rewrite app_nil_r.
    unfold rq_src, rq_tgt. simpl. destruct (a =? u) eqn:E1; [reflexivity|].
    rewrite Un. simpl.
    destruct (b =? u) eqn:E; [|reflexivity]. apply Nat.eqb_eq in E as ->. reflexivity.
  Qed.

  Lemma in_edges_undirected n R u :
    und = true -> u < n ->
    in_edges c (stored c n R) u = Ok (map edge_inverter (oe R u)) /\
    map (fun e => (e_source e, e_target e)) (map edge_inverter (oe R u)) = map fst (spec_in und (rev R) u) /\
    (sel_none c = false ->
     describe (stored c n R) (map edge_inverter (oe R u)) = Ok (spec_in und (rev R) u)).
  Proof.
    intros Un Lu. split; [|split].
    - unfold in_edges. rewrite Un, out_edges_stored by assumption. reflexivity.
    - rewrite spec_in_undirected by assumption. unfold oe. rewrite map_map, map_imap.
      rewrite (map_map _ fst). exact (imap_const (fun x => (it_tgt x, u)) _ 0).
    - intro SN. rewrite spec_in_undirected by assumption. unfold describe, oe.
      rewrite map_imap. apply collect_imap. intros k x Hk. simpl Nat.add.
      generalize (bundle_stored n R u k x Lu Hk). unfold edge_bundle, oe_of, edge_inverter.
      cbn [e_source e_target e_bundle]. rewrite SN. intros ->. reflexivity.
  Qed.

  (** ** Iteration over all edges *)

  Definition keep (u : nat) (e : edge) : bool := negb (und && (e_target e <? u)).

  Section Iterate.
    Variable n : nat.
    Variable R : list request.
    Notation g := (stored c n R).

    Definition rem (u i : nat) : list edge :=
      filter (keep u) (skipn i (oe R u)) ++
      flat_map (fun w => filter (keep w) (oe R w)) (seq (S u) (n - S u)).

    Definition weight (u i : nat) : nat :=
      (length (oe R u) - i) + S (list_sum (map (fun w => S (length (oe R w))) (seq (S u) (n - S u)))).

    Lemma rem_next u : S u < n -> rem u (length (oe R u)) = rem (S u) 0.
    Proof.
      intro H. unfold rem. rewrite skipn_all. simpl filter. simpl app.
      replace (n - S u) with (S (n - S (S u))) by lia. reflexivity.
    Qed.

    Lemma weight_next u : S u < n -> weight u (length (oe R u)) = S (weight (S u) 0).
    Proof.
      intro H. unfold weight. rewrite Nat.sub_diag, Nat.sub_0_r.
      replace (n - S u) with (S (n - S (S u))) by lia. simpl. lia.
    Qed.

    Lemma get_edge_oe u k e :
      u < n -> nth_error (oe R u) k = Some e -> get_edge c g u k = Ok e.
    Proof.
      intros Lu H. unfold oe in H. rewrite imap_nth in H.
      destruct (nth_error (it_out R u) k) as [x|] eqn:E; [|discriminate].
      injection H as <-. now apply get_edge_stored.
    Qed.

    Lemma outs_length u : u < n -> exists l, outs g u = Ok l /\ length l = length (oe R u).
    Proof.
      intro Lu. unfold stored. rewrite outs_mk by assumption. eexists. split; [reflexivity|].
      unfold oe. now rewrite imap_length, ent_out_items, map_length.
    Qed.

    Lemma skipn_nth {A} : forall (l : list A) i e, nth_error l i = Some e -> skipn i l = e :: skipn (S i) l.
    Proof. induction l as [|x l IH]; intros [|i] e H; try discriminate; [now injection H as ->|apply (IH i), H]. Qed.

    Lemma skip_empty_spec : forall fuel u i,
      u < n -> i <= length (oe R u) -> weight u i < fuel ->
      match rem u i with
      | [] => exists j, skip_empty fuel c g u i = Ok (n, j)
      | e :: r => exists u' i', skip_empty fuel c g u i = Ok (u', i') /\
                    u' < n /\ i' < length (oe R u') /\ get_edge c g u' i' = Ok e /\ rem u' (S i') = r
                    /\ weight u' (S i') <= weight u i
      end.
    Proof.
      induction fuel as [|f IH]; intros u i Lu Li W; [lia|]. cbn [skip_empty].
      assert (VC : vertex_count g = n) by apply vertex_count_mk. rewrite !VC.
      replace (u =? n) with false by (symmetry; apply Nat.eqb_neq; lia).
      destruct (outs_length u Lu) as (l & El & Hl). rewrite El. cbn [bind]. rewrite Hl.
      destruct (i =? length (oe R u)) eqn:Ei.
      - apply Nat.eqb_eq in Ei as ->. destruct (S u =? n) eqn:En.
        + apply Nat.eqb_eq in En.
          assert (Er : rem u (length (oe R u)) = []).
          { unfold rem. rewrite skipn_all, En, Nat.sub_diag. reflexivity. }
          rewrite Er. exists (length (oe R u)).
          destruct f as [|f]; [unfold weight in W; lia|]. cbn [skip_empty].
          unfold stored. rewrite vertex_count_mk. rewrite En, Nat.eqb_refl. reflexivity.
        + apply Nat.eqb_neq in En. rewrite rem_next by lia.
          rewrite weight_next in W by lia.
          specialize (IH (S u) 0 ltac:(lia) ltac:(lia) ltac:(lia)).
          destruct (rem (S u) 0) as [|e r].
          * exact IH.
          * destruct IH as (u' & i' & H1 & H2 & H3 & H4 & H5 & H6).
            exists u', i'. repeat split; auto. rewrite weight_next by lia. lia.
      - apply Nat.eqb_neq in Ei. assert (Li' : i < length (oe R u)) by lia.
        destruct (nth_error (oe R u) i) as [e|] eqn:Ne; [|apply nth_error_None in Ne; lia].
        assert (Er : rem u i = if keep u e then e :: rem u (S i) else rem u (S i)).
        { unfold rem. rewrite (skipn_nth _ _ _ Ne). cbn [filter]. now destruct (keep u e). }
        assert (Wn : weight u i = S (weight u (S i))) by (unfold weight; lia).
        assert (Stop : keep u e = true ->
                 match rem u i with
                 | [] => exists j, @Ok (nat * nat) (u, i) = Ok (n, j)
                 | e :: r => exists u' i', @Ok (nat * nat) (u, i) = Ok (u', i') /\
                    u' < n /\ i' < length (oe R u') /\ get_edge c g u' i' = Ok e /\ rem u' (S i') = r
                    /\ weight u' (S i') <= weight u i
                 end).
        { intro K. rewrite Er, K. exists u, i. repeat split; auto.
          - now apply get_edge_oe.
          - lia. }
        unfold keep in *. destruct und eqn:Un; cbn [andb] in *.
        + rewrite (get_edge_oe u i e) by assumption. cbn [bind].
          destruct (e_target e <? u) eqn:T; cbn [negb] in *; [|now apply Stop].
          rewrite Er, Wn in *. specialize (IH u (S i) Lu Li' ltac:(lia)).
          destruct (rem u (S i)) as [|e' r]; [exact IH|].
          destruct IH as (u' & i' & H1 & H2 & H3 & H4 & H5 & H6).
          exists u', i'. repeat split; auto.
        + now apply Stop.
    Qed.

    Lemma edges_from_spec sf : forall r fuel u i e,
      u < n -> i < length (oe R u) -> get_edge c g u i = Ok e -> rem u (S i) = r ->
      weight u (S i) < sf -> S (length r) < fuel ->
      edges_from fuel sf c g u i = Ok (e :: r).
    Proof.
      induction r as [|e' r IH]; intros fuel u i e Lu Li G Er W F;
        (destruct fuel as [|f]; [simpl in F; lia|]); cbn [edges_from];
        unfold stored at 1; rewrite vertex_count_mk;
        (replace (u =? n) with false by (symmetry; apply Nat.eqb_neq; lia));
        rewrite G; cbn [bind]; pose proof (skip_empty_spec sf u (S i) Lu Li W) as Sk;
        rewrite Er in Sk.
      - destruct Sk as [j Sk]. rewrite Sk. cbn [bind].
        destruct f as [|f]; [simpl in F; lia|]. cbn [edges_from].
        unfold stored. rewrite vertex_count_mk, Nat.eqb_refl. reflexivity.
      - destruct Sk as (u' & i' & H1 & H2 & H3 & H4 & H5 & H6). rewrite H1. cbn [bind].
        rewrite (IH f u' i' e') by (auto; simpl in F; lia). reflexivity.
    Qed.

    Definition all_edges : list edge := flat_map (fun w => filter (keep w) (oe R w)) (seq 0 n).

    Lemma list_sum_seq_add (f h : nat -> nat) : forall l,
      list_sum (map (fun w => f w + h w) l) = list_sum (map f l) + list_sum (map h l).
    Proof. induction l; simpl; lia. Qed.

    Lemma edges_stored fuel :
      0 < n -> c_sel c <> SelTwo -> weight 0 0 < fuel -> S (length all_edges) < fuel ->
      edges fuel c g = Ok all_edges.
    Proof.
      intros Ln NS W F. unfold edges.
      assert (E : (do l <- outs g 0; do (u, i) <- skip_empty fuel c g 0 0; edges_from fuel fuel c g u i)
                  = Ok all_edges).
      { destruct (outs_length 0 Ln) as (l & El & Hl). rewrite El. cbn [bind].
        pose proof (skip_empty_spec fuel 0 0 Ln ltac:(lia) W) as Sk.
        assert (Er : rem 0 0 = all_edges).
        { unfold rem, all_edges. replace n with (S (n - 1)) at 2 by lia. reflexivity. }
        rewrite Er in Sk. destruct all_edges as [|e r].
        - destruct Sk as [j Sk]. rewrite Sk. cbn [bind].
          destruct fuel as [|f]; [simpl in F; lia|]. cbn [edges_from].
          unfold stored. rewrite vertex_count_mk, Nat.eqb_refl. reflexivity.
        - destruct Sk as (u' & i' & H1 & H2 & H3 & H4 & H5 & H6). rewrite H1. cbn [bind].
          apply edges_from_spec; auto; simpl in F; lia. }
      destruct (c_sel c); auto. congruence.
    Qed.

    (** The fuel needed, in terms of the number of edges. *)
    Lemma oe_total : forall l, NoDup l ->
      list_sum (map (fun w => length (oe R w)) l) <= 2 * length R.
    Proof.
      intros l Hl.
      assert (E : forall w, length (oe R w) = length (it_out R w)) by (intro; unfold oe; apply imap_length).
      rewrite (map_ext _ _ E). clear E.
      induction R as [|[[a b] p] R' IH].
      - simpl. clear Hl. induction l; simpl; auto.
      - cbn [it_out length].
        rewrite (map_ext _ (fun w => length (it_out R' w) +
                   length (if a =? w then [(b, p, length R')]
                           else if und && (b =? w) then [(a, p, length R')] else [])))
          by (intro; apply app_length).
        rewrite list_sum_seq_add.
        assert (H : list_sum (map (fun w => length (if a =? w then [(b, p, length R')]
                           else if und && (b =? w) then [(a, p, length R')] else [])) l) <= 2).
        { assert (H1 : forall k, list_sum (map (fun w => if k =? w then 1 else 0) l) <= 1).
          { intro k. clear IH. induction Hl as [|w l Hw Hl IHl]; simpl; [lia|].
            destruct (k =? w) eqn:Ek; [|lia]. apply Nat.eqb_eq in Ek as <-.
            assert (Z : list_sum (map (fun w => if k =? w then 1 else 0) l) = 0).
            { clear IHl Hl. induction l as [|w l IHl]; simpl; [reflexivity|].
              destruct (k =? w) eqn:Ek; [apply Nat.eqb_eq in Ek as <-; elim Hw; now left|].
              rewrite IHl; [reflexivity|]. intro Hin; apply Hw; now right. }
            lia. }
          pose proof (H1 a). pose proof (H1 b). 
          assert (H2 : list_sum (map (fun w => length (if a =? w then [(b, p, length R')]
                           else if und && (b =? w) then [(a, p, length R')] else [])) l)
                   <= list_sum (map (fun w => if a =? w then 1 else 0) l)
                      + list_sum (map (fun w => if b =? w then 1 else 0) l)).
          { clear. induction l as [|w l IHl]; simpl; [lia|].
            destruct (a =? w), und, (b =? w); simpl in *; lia. }
          lia. }
        lia.
    Qed.

    Lemma weight_bound : 0 < n -> weight 0 0 <= n + 2 * length R.
    Proof.
      intro Ln. unfold weight.
      pose proof (oe_total (seq 0 n) (seq_NoDup n 0)) as H.
      assert (E : forall l, list_sum (map (fun w => S (length (oe R w))) l)
                 = length l + list_sum (map (fun w => length (oe R w)) l)).
      { induction l; simpl; lia. }
      rewrite E, seq_length.
      replace n with (S (n - 1)) in H at 1 by lia. cbn [seq map list_sum] in H.
      unfold list_sum in H at 1. cbn [fold_right] in H. fold (list_sum (map (fun w => length (oe R w)) (seq 1 (n - 1)))) in H.
      lia.
    Qed.

    Lemma filter_length_le {A} (f : A -> bool) l : length (filter f l) <= length l.
    Proof. induction l as [|x l IH]; simpl; [lia|]. destruct (f x); simpl; lia. Qed.

    Lemma all_edges_bound : length all_edges <= 2 * length R.
    Proof.
      etransitivity; [|apply (oe_total (seq 0 n) (seq_NoDup n 0))].
      unfold all_edges. induction (seq 0 n) as [|w l IH]; simpl; [lia|].
      rewrite app_length. pose proof (filter_length_le (keep w) (oe R w)). lia.
    Qed.
  End Iterate.

  (** ** Each accepted request is met exactly once *)

  (** End points, bundle and index of the edges kept by the iteration at [w]. *)
  Definition kept (R : list request) (w : nat) : list (request * nat) :=
    filter (fun x => negb (und && (rq_tgt (fst x) <? w)))
      (map (fun x => ((w, it_tgt x, it_prop x), it_idx x)) (it_out R w)).

  Fixpoint indexed (R : list request) : list (request * nat) :=
    match R with
    | [] => []
    | x :: R' => indexed R' ++ [(normal und x, length R')]
    end.

  Lemma flat_map_single {A} (h : nat -> list A) k : forall l,
    NoDup l -> In k l -> (forall w, w <> k -> h w = []) -> flat_map h l = h k.
  Proof.
    induction l as [|w l IH]; intros N I H; [contradiction|]. inversion_clear N as [|? ? Nw N'].
    simpl. destruct (Nat.eq_dec w k) as [->|D].
    - assert (Z : flat_map h l = []).
      { clear IH I N'. induction l as [|x l IHl]; [reflexivity|]. simpl.
        rewrite H by (intros ->; apply Nw; now left). simpl. apply IHl. intro; apply Nw; now right. }
      now rewrite Z, app_nil_r.
    - rewrite H by assumption. simpl. apply IH; auto. destruct I; [congruence|assumption].
  Qed.

  Lemma flat_map_nil {A B} (l : list A) : flat_map (fun _ => @nil B) l = [].
  Proof. induction l; auto. Qed.

  Lemma flat_map_split {A B} (f h : A -> list B) l :
    Permutation (flat_map (fun w => f w ++ h w) l) (flat_map f l ++ flat_map h l).
  Proof.
    induction l as [|w l IH]; simpl; [constructor|].
    rewrite <- !app_assoc. apply Permutation_app_head.
    rewrite IH, !app_assoc. apply Permutation_app_tail, Permutation_app_comm.
  Qed.

  Lemma kept_permutation n R :
    bounded n R -> Permutation (flat_map (kept R) (seq 0 n)) (indexed R).
  Proof.
    induction 1 as [|[[a b] p] R [Ha Hb] B IH].
    - unfold kept. simpl. rewrite flat_map_nil. constructor.
    - unfold rq_src, rq_tgt in Ha, Hb. simpl in Ha, Hb. cbn [indexed].
      pose (ex w := filter (fun x : request * nat => negb (und && (rq_tgt (fst x) <? w)))
              (map (fun x => ((w, it_tgt x, it_prop x), it_idx x))
                 (if a =? w then [(b, p, length R)]
                  else if und && (b =? w) then [(a, p, length R)] else []))).
      assert (E : forall w, kept ((a, b, p) :: R) w = kept R w ++ ex w).
      { intro w. unfold kept, ex. cbn [it_out]. now rewrite map_app, filter_app. }
      rewrite (flat_map_ext _ _ E), flat_map_split.
      apply Permutation_app; [exact IH|].
      assert (S : flat_map ex (seq 0 n) = [(normal und (a, b, p), length R)]).
      { unfold normal, rq_src, rq_tgt. cbn [fst snd].
        pose (k := if und && (b <? a) then b else a).
        assert (Z : forall w, w <> k -> ex w = []).
        { intros w. unfold ex, k, rq_tgt.
          destruct (a =? w) eqn:Ea; [apply Nat.eqb_eq in Ea as <-|].
          - simpl. unfold it_tgt. simpl. destruct (und && (b <? a)); [reflexivity|congruence].
          - destruct und; simpl; [|reflexivity].
            destruct (b =? w) eqn:Eb; [|reflexivity]. apply Nat.eqb_eq in Eb as <-. simpl.
            unfold it_tgt. simpl. intro D. apply Nat.eqb_neq in Ea.
            destruct (b <? a) eqn:L; [congruence|]. apply Nat.ltb_ge in L.
            replace (a <? b) with true by (symmetry; apply Nat.ltb_lt; lia). reflexivity. }
        rewrite (flat_map_single ex k).
        - unfold ex, k, rq_tgt. destruct (und && (b <? a)) eqn:L.
          + apply andb_prop in L as [Un L]. rewrite Un. apply Nat.ltb_lt in L.
            replace (a =? b) with false by (symmetry; apply Nat.eqb_neq; lia).
            rewrite Nat.eqb_refl. simpl. unfold it_tgt, it_prop. simpl.
            replace (a <? b) with false by (symmetry; apply Nat.ltb_ge; lia). reflexivity.
          + rewrite Nat.eqb_refl. simpl. unfold it_tgt, it_prop. simpl. rewrite L. reflexivity.
        - apply seq_NoDup.
        - apply in_seq. unfold k. destruct (und && (b <? a)); lia.
        - exact Z. }
      rewrite S. reflexivity.
  Qed.

  Lemma map_filter_comm {A B} (f : A -> B) (q : B -> bool) (p : A -> bool) l :
    (forall x, p x = q (f x)) -> map f (filter p l) = filter q (map f l).
  Proof.
    intro H. induction l as [|x l IH]; [reflexivity|]. simpl. rewrite <- H.
    destruct (p x); simpl; now rewrite IH.
  Qed.

  Lemma map_flat_map {A B C} (f : B -> C) (h : A -> list B) l :
    map f (flat_map h l) = flat_map (fun x => map f (h x)) l.
  Proof. induction l; simpl; [reflexivity|]. now rewrite map_app, IHl. Qed.

  (** Edges kept at [w] and their descriptions go in parallel. *)
  Lemma kept_describe n R w :
    w < n -> describe (stored c n R) (filter (keep w) (oe R w)) = Ok (map fst (kept R w)).
  Proof.
    intro Lw. unfold kept, oe.
    assert (G : forall l s,
      (forall k x, nth_error l k = Some x ->
         edge_bundle c (stored c n R) (oe_of w (s + k) x) = Ok (it_prop x)) ->
      describe (stored c n R) (filter (keep w) (imap (oe_of w) s l)) =
      Ok (map fst (filter (fun x : request * nat => negb (und && (rq_tgt (fst x) <? w)))
            (map (fun x => ((w, it_tgt x, it_prop x), it_idx x)) l)))).
    { induction l as [|x l IH]; intros s H; [reflexivity|]. cbn [imap filter map].
      unfold keep at 1. cbn [e_target oe_of rq_tgt fst snd].
      assert (IH' := IH (S s)).
      destruct (negb (und && (it_tgt x <? w))) eqn:K.
      - unfold describe. cbn [collect].
        generalize (H 0 x eq_refl). rewrite Nat.add_0_r. intros ->. cbn [bind].
        unfold describe in IH'. rewrite IH'; [reflexivity|].
        intros k y Hk. specialize (H (S k) y Hk). now replace (S s + k) with (s + S k) by lia.
      - apply IH'.
        intros k y Hk. specialize (H (S k) y Hk). now replace (S s + k) with (s + S k) by lia. }
    apply G. intros k x Hk. simpl Nat.add. now apply bundle_stored.
  Qed.

  Lemma all_describe n R :
    describe (stored c n R) (all_edges n R) = Ok (map fst (flat_map (kept R) (seq 0 n))).
  Proof.
    unfold all_edges. rewrite map_flat_map.
    assert (G : forall l, (forall w, In w l -> w < n) ->
      describe (stored c n R) (flat_map (fun w => filter (keep w) (oe R w)) l)
      = Ok (flat_map (fun w => map fst (kept R w)) l)).
    { induction l as [|w l IH]; intro H; [reflexivity|]. simpl.
      apply collect_app; [apply kept_describe, H; now left|apply IH; intros; apply H; now right]. }
    apply G. intros w Hw. apply in_seq in Hw. lia.
  Qed.

  Lemma indexed_fst R : map fst (indexed R) = map (normal und) (rev R).
  Proof. induction R as [|x R IH]; [reflexivity|]. simpl. now rewrite !map_app, IH. Qed.

  Lemma indexed_snd R : map snd (indexed R) = seq 0 (length R).
  Proof.
    induction R as [|x R IH]; [reflexivity|]. cbn [indexed length]. rewrite map_app, IH.
    rewrite seq_S. reflexivity.
  Qed.

  Lemma NoDup_app_intro {A} (l1 l2 : list A) :
    NoDup l1 -> NoDup l2 -> (forall x, In x l1 -> ~ In x l2) -> NoDup (l1 ++ l2).
  Proof.
    induction 1 as [|x l Hx Hl IH]; simpl; intros H2 D; [assumption|].
    constructor.
    - rewrite in_app_iff. intros [H|H]; [auto|]. apply (D x); auto.
    - apply IH; auto.
  Qed.

  Lemma NoDup_flat_map {A B} (f : A -> list B) l :
    NoDup l -> (forall x, NoDup (f x)) ->
    (forall x y b, In b (f x) -> In b (f y) -> x = y) -> NoDup (flat_map f l).
  Proof.
    intros Hl H1 H2. induction Hl as [|x l Hx Hl IH]; simpl; [constructor|].
    apply NoDup_app_intro; auto.
    intros b Hb Hb'. apply in_flat_map in Hb' as (y & Hy & Hb').
    rewrite (H2 x y b Hb Hb') in Hx. contradiction.
  Qed.

  Lemma NoDup_filter_map {A B} (f : A -> B) p l : NoDup (map f l) -> NoDup (map f (filter p l)).
  Proof.
    induction l as [|x l IH]; simpl; intro H; [constructor|].
    inversion_clear H as [|? ? H1 H2]. destruct (p x); [|auto]. simpl. constructor; auto.
    intro I. apply H1. apply in_map_iff in I as (y & E & I). apply filter_In in I as [I _].
    apply in_map_iff. eauto.
  Qed.

  Lemma all_edges_ids n R : bounded n R -> NoDup (map (edge_id c) (all_edges n R)).
  Proof.
    intro B. unfold all_edges. rewrite map_flat_map. destruct (sel_none c) eqn:SN.
    - apply NoDup_flat_map.
      + apply seq_NoDup.
      + intro w. apply NoDup_filter_map. unfold oe. rewrite map_imap.
        unfold edge_id, oe_of. rewrite SN. cbn [e_source e_bundle].
        assert (G : forall (l : list item) s, imap (fun k (_ : item) => (w, k)) s l
                    = map (fun k => (w, k)) (seq s (length l))).
        { induction l; intro s; simpl; f_equal; auto. }
        rewrite G. apply FinFun.Injective_map_NoDup; [|apply seq_NoDup].
        intros x y E. congruence.
      + intros x y b Hx Hy. apply in_map_iff in Hx as (e & <- & Hx), Hy as (e' & Ey & Hy).
        apply filter_In in Hx as [Hx _], Hy as [Hy _].
        assert (G : forall w e, In e (oe R w) -> e_source e = w).
        { intros w f Hf. unfold oe in Hf. apply In_nth_error in Hf as [k Hk].
          rewrite imap_nth in Hk. destruct (nth_error (it_out R w) k); [|discriminate].
          injection Hk as <-. reflexivity. }
        apply G in Hx, Hy. unfold edge_id in Ey. rewrite SN in Ey. congruence.
    - assert (E : flat_map (fun w => map (edge_id c) (filter (keep w) (oe R w))) (seq 0 n)
                  = map (fun i => (0, i)) (map snd (flat_map (kept R) (seq 0 n)))).
      { rewrite map_flat_map, map_flat_map. apply flat_map_ext. intro w.
        unfold kept, oe. generalize (it_out R w). intro l.
        rewrite map_map.
        assert (G : forall s, map (edge_id c) (filter (keep w) (imap (oe_of w) s l)) =
          map (fun x : request * nat => (0, snd x))
            (filter (fun x : request * nat => negb (und && (rq_tgt (fst x) <? w)))
              (map (fun x => ((w, it_tgt x, it_prop x), it_idx x)) l))); [|apply G].
        induction l as [|x l IH]; intro s; [reflexivity|]. cbn [imap filter map].
        unfold keep at 1. cbn [e_target oe_of rq_tgt fst snd].
        destruct (negb (und && (it_tgt x <? w))); cbn [map]; [|apply IH].
        rewrite IH. f_equal. unfold edge_id, oe_of. rewrite SN. reflexivity. }
      rewrite E. apply FinFun.Injective_map_NoDup; [intros x y H; congruence|].
      apply Permutation_NoDup with (l := map snd (indexed R)).
      + apply Permutation_map, Permutation_sym, kept_permutation, B.
      + rewrite indexed_snd. apply seq_NoDup.
  Qed.

  (** ** With two stored vertices the edge list is walked *)

  Definition two_of (k : nat) (x : request) : edge :=
    {| e_source := rq_src (normal und x); e_target := rq_tgt (normal und x); e_bundle := k |}.

  Lemma edges_two fuel n R :
    c_sel c = SelTwo ->
    edges fuel c (stored c n R) = Ok (imap two_of 0 (rev R)) /\
    describe (stored c n R) (imap two_of 0 (rev R)) = Ok (map (normal und) (rev R)) /\
    map (edge_id c) (imap two_of 0 (rev R)) = map (fun i => (0, i)) (seq 0 (length R)).
  Proof.
    intro ST. assert (SN : sel_none c = false) by (unfold sel_none; now rewrite ST).
    split; [|split].
    - unfold edges. rewrite ST. unfold stored at 2, mk at 1. cbn [g_edges].
      rewrite ent_el_map, map_length. apply collect_seq. intros k x Hk. simpl Nat.add.
      rewrite (el_stored n R _ _ Hk). cbn [bind]. unfold el_of, two_of, normal, make_vertices.
      rewrite ST. destruct (und && (rq_tgt x <? rq_src x)); reflexivity.
    - unfold describe. apply collect_imap. intros k x Hk. simpl Nat.add.
      unfold edge_bundle. rewrite SN. cbn [e_bundle two_of].
      rewrite (el_stored n R _ _ Hk). unfold el_of, omap. rewrite SN. cbn [bind snd].
      unfold two_of, normal. destruct x as [[a b] p]. unfold rq_src, rq_tgt. cbn [fst snd e_source e_target].
      destruct (und && (b <? a)); reflexivity.
    - rewrite map_imap. unfold edge_id. rewrite SN. cbn [e_bundle two_of]. rewrite <- rev_length.
      generalize (rev R). intro l. generalize 0 at 2 4. induction l as [|x l IH]; intro s; simpl; f_equal; auto.
  Qed.

  (** ** Looking for an edge *)

  Lemma find_key_first : forall l v,
    find_key v l = match find (has_key v) l with
                   | Some _ => find_key v l | None => length l end.
  Proof.
    induction l as [|x l IH]; intro v; [reflexivity|]. simpl.
    destruct (has_key v x); [reflexivity|]. rewrite IH. now destruct (find (has_key v) l).
  Qed.

  Lemma find_edge_stored n R u v :
    u < n ->
    find_edge c (stored c n R) u v =
    match find (fun e => e_target e =? v) (oe R u) with
    | Some e => Ok e
    | None => if has_out_vertex c then AssertFail else Ok default_edge
    end.
  Proof.
    intro Lu. unfold find_edge. destruct (has_out_vertex c) eqn:HV.
    - destruct (outs_length n R u Lu) as (l & El & Hl).
      assert (El' : l = ent_out c R u).
      { unfold stored in El. rewrite outs_mk in El by assumption. congruence. }
      rewrite El. cbn [bind]. subst l.
      assert (G : forall l s, (* position found by key = position of the first edge *)
        match find (fun e => e_target e =? v) (imap (oe_of u) s l) with
        | Some e => exists k x, find_key v (map (fun x => {| en_first := key c (it_tgt x);
                      en_second := if sel_none c then it_prop x else it_idx x |}) l) = k /\
                      nth_error l k = Some x /\ e = oe_of u (s + k) x
        | None => find_key v (map (fun x => {| en_first := key c (it_tgt x);
                      en_second := if sel_none c then it_prop x else it_idx x |}) l) = length l
        end).
      { induction l as [|x l IH]; intro s; [reflexivity|].
        cbn [imap find map find_key]. unfold has_key at 1 2. unfold key at 1 3. rewrite HV. cbn [en_first].
        cbn [e_target oe_of]. destruct (it_tgt x =? v).
        - exists 0, x. rewrite Nat.add_0_r. auto.
        - specialize (IH (S s)). destruct (find _ (imap (oe_of u) (S s) l)).
          + destruct IH as (k & y & H1 & H2 & H3). exists (S k), y. rewrite H1.
            repeat split; auto. rewrite H3. f_equal. lia.
          + cbn [length]. f_equal. exact IH. }
      specialize (G (it_out R u) 0). fold (oe R u) in G. rewrite <- ent_out_items in G.
      destruct (find (fun e => e_target e =? v) (oe R u)) as [e|].
      + destruct G as (k & x & H1 & H2 & ->). rewrite H1. now apply get_edge_stored.
      + rewrite G. unfold get_edge. rewrite El. cbn [bind]. unfold at_id.
        rewrite (proj2 (nth_error_None _ _)); [reflexivity|].
        rewrite ent_out_items, map_length. lia.
    - rewrite out_edges_stored by assumption. cbn [bind].
      destruct (find _ (oe R u)); reflexivity.
  Qed.
End Read.

(** * Histories *)

Lemma accept_app unique und : forall h acc x,
  accept unique und acc (h ++ [x]) =
  let a := accept unique und acc h in
  if unique && existsb (joins und (rq_src x) (rq_tgt x)) a then a else a ++ [x].
Proof.
  induction h as [|y h IH]; intros acc x; simpl.
  - now destruct (unique && existsb _ acc).
  - destruct (unique && existsb _ acc); apply IH.
Qed.

Lemma existsb_rev {A} (f : A -> bool) l : existsb f (rev l) = existsb f l.
Proof.
  destruct (existsb f l) eqn:E.
  - apply existsb_exists in E as (x & H1 & H2). apply existsb_exists. exists x. now rewrite <- in_rev.
  - apply not_true_is_false. intro H. apply existsb_exists in H as (x & H1 & H2).
    rewrite <- in_rev in H1. assert (existsb f l = true) by (apply existsb_exists; eauto). congruence.
Qed.

(** The replies a history must get: accepted requests answer with an edge with
    the requested end points, refused ones with failure. *)
Fixpoint replies (unique und : bool) (acc h : list request) : list bool :=
  match h with
  | [] => []
  | x :: r =>
      let no := unique && existsb (joins und (rq_src x) (rq_tgt x)) acc in
      negb no :: replies unique und (if no then acc else acc ++ [x]) r
  end.

Lemma bounded_mono n m R : n <= m -> bounded n R -> bounded m R.
Proof. intros L H. eapply Forall_impl; [|exact H]. simpl. intros x [? ?]. lia. Qed.

Lemma needed_le : forall h n, n <= needed n h.
Proof. induction h as [|x h IH]; intro n; simpl; [lia|]. etransitivity; [|apply IH]. lia. Qed.

Lemma it_out_mono c : forall T R u k x,
  nth_error (it_out c R u) k = Some x -> nth_error (it_out c (T ++ R) u) k = Some x.
Proof.
  induction T as [|[[a b] p] T IH]; intros R u k x H; [assumption|].
  simpl. rewrite nth_error_app1; [auto|]. apply nth_error_Some. rewrite (IH R u k x H). discriminate.
Qed.

(** The handle returned by an insertion keeps leading to its bundle. *)
Lemma result_edge_bundle c n T R u v p :
  u < n ->
  edge_bundle c (stored c n (T ++ (u, v, p) :: R)) (result_edge c R u v) = Ok p.
Proof.
  intro Lu.
  assert (E : result_edge c R u v = oe_of c u (length (it_out c R u)) (v, p, length R)).
  { unfold result_edge, oe_of. rewrite ent_out_items, map_length. reflexivity. }
  rewrite E.
  apply (bundle_stored c n (T ++ (u, v, p) :: R) u (length (it_out c R u)) (v, p, length R) Lu).
  apply it_out_mono. simpl. rewrite Nat.eqb_refl, nth_error_app2, Nat.sub_diag by lia. reflexivity.
Qed.

Definition reply_ok (c : config) (g : graph) (x : request) (r : edge * bool) : Prop :=
  if snd r
  then e_source (fst r) = rq_src x /\ e_target (fst r) = rq_tgt x /\
       edge_bundle c g (fst r) = Ok (snd x)
  else fst r = default_edge.

Theorem run_stored c : forall h n R e0,
  bounded n R ->
  exists R' rs,
    run c (stored c n R) h e0 = Ok (stored c (needed n h) R', rs) /\
    bounded (needed n h) R' /\
    (exists T, R' = T ++ R) /\
    rev R' = accept (c_unique c) (is_undirected c) (rev R) h /\
    map snd rs = replies (c_unique c) (is_undirected c) (rev R) h /\
    Forall2 (reply_ok c (stored c (needed n h) R')) h rs.
Proof.
  induction h as [|[[u v] p] h IH]; intros n R e0 B.
  - exists R, []. simpl. repeat split; auto. now exists [].
  - cbn [run]. rewrite try_add_edge_stored by assumption.
    cbn [needed accept replies]. unfold rq_src, rq_tgt. cbn [fst snd].
    unfold refused. rewrite <- (existsb_rev _ R).
    assert (B' : bounded (Nat.max n (S (Nat.max u v))) R) by (eapply bounded_mono; [|exact B]; lia).
    destruct (c_unique c && existsb (joins (is_undirected c) u v) (rev R)) eqn:RF; cbn [bind].
    + destruct (IH _ R (fun i => e0 (S i)) B') as (R' & rs & H1 & H2 & H6 & H3 & H4 & H5).
      rewrite H1. cbn [bind]. exists R', ((default_edge, false) :: rs).
      split; [reflexivity|]. split; [exact H2|]. split; [exact H6|]. split; [exact H3|].
      split; [cbn [map snd negb]; f_equal; exact H4|].
      constructor; [reflexivity|exact H5].
    + assert (B'' : bounded (Nat.max n (S (Nat.max u v))) ((u, v, p) :: R)).
      { constructor; [|exact B']. unfold rq_src, rq_tgt. simpl. lia. }
      destruct (IH _ ((u, v, p) :: R) (fun i => e0 (S i)) B'') as (R' & rs & H1 & H2 & H6 & H3 & H4 & H5).
      rewrite H1. cbn [bind]. exists R', ((result_edge c R u v, true) :: rs).
      destruct H6 as [T HT].
      split; [reflexivity|]. split; [exact H2|].
      split; [exists (T ++ [(u, v, p)]); rewrite HT, <- app_assoc; reflexivity|].
      split; [exact H3|].
      split; [cbn [map snd negb]; f_equal; exact H4|].
      constructor; [|exact H5]. unfold reply_ok. cbn [snd fst].
      split; [reflexivity|]. split; [reflexivity|].
      rewrite HT. apply result_edge_bundle.
      eapply Nat.lt_le_trans; [|apply needed_le]. lia.
Qed.

Lemma empty_stored c n : empty_graph n = stored c n [].
Proof.
  unfold empty_graph, stored, mk. simpl. f_equal.
  generalize 0. induction n as [|n IH]; intro s; simpl; [reflexivity|]. now rewrite (IH (S s)).
Qed.

(** * Edge list *)

Section EdgeListProofs.
  Variable und unique : bool.

  Lemma el_order_normal u v p : (fst (el_order und u v), snd (el_order und u v), p) = normal und (u, v, p).
  Proof.
    unfold el_order, normal, rq_src, rq_tgt. cbn [fst snd].
    now destruct (und && (v <? u)).
  Qed.

  (** Ordered end points match iff the request joins the same vertices. *)
  Lemma el_match_joins u v x :
    el_match (fst (el_order und u v)) (snd (el_order und u v)) (normal und x) = joins und u v x.
  Proof.
    destruct x as [[a b] p]. unfold el_match, el_order, normal, joins, rq_src, rq_tgt. cbn [fst snd].
    destruct und; cbn [andb].
    - destruct (v <? u) eqn:L1, (b <? a) eqn:L2; cbn [fst snd];
        rewrite ?Nat.ltb_lt, ?Nat.ltb_ge in *;
        destruct (a =? u) eqn:E1, (b =? v) eqn:E2, (a =? v) eqn:E3, (b =? u) eqn:E4;
        rewrite ?Nat.eqb_eq, ?Nat.eqb_neq in *; simpl; try reflexivity; lia.
    - cbn [fst snd]. now rewrite orb_false_r.
  Qed.

  Lemma existsb_el u v A :
    existsb (el_match (fst (el_order und u v)) (snd (el_order und u v))) (map (normal und) A)
    = existsb (joins und u v) A.
  Proof. induction A as [|x A IH]; [reflexivity|]. simpl. now rewrite IH, el_match_joins. Qed.

  Lemma el_pos_first : forall l u v,
    el_pos u v l <= length l /\
    (forall k x, k < el_pos u v l -> nth_error l k = Some x -> el_match u v x = false) /\
    (existsb (el_match u v) l = true ->
     exists x, nth_error l (el_pos u v l) = Some x /\ el_match u v x = true) /\
    (existsb (el_match u v) l = false -> el_pos u v l = length l).
  Proof.
    induction l as [|y l IH]; intros u v.
    - simpl. repeat split; auto; try discriminate. intros; lia.
    - destruct (IH u v) as (H1 & H2 & H3 & H4). simpl. destruct (el_match u v y) eqn:E.
      + split; [lia|]. split; [intros; lia|]. split; [intros _; now exists y|discriminate].
      + split; [lia|]. split; [|split].
        * intros [|k] x Hk Hx; [now injection Hx as <-|]. apply (H2 k); [lia|assumption].
        * intro H. apply H3, H.
        * intro H. f_equal. apply H4, H.
  Qed.

  Lemma el_run_spec : forall h A,
    exists rs, el_run und unique (map (normal und) A) h
      = (map (normal und) (accept unique und A h), rs) /\
    map snd rs = replies unique und A h /\
    Forall2 (fun (x : request) r =>
      e_source (fst r) = rq_src (normal und x) /\ e_target (fst r) = rq_tgt (normal und x) /\
      (exists p, nth_error (map (normal und) (accept unique und A h)) (e_bundle (fst r))
        = Some (e_source (fst r), e_target (fst r), p) /\ (snd r = true -> p = snd x))) h rs.
  Proof.
    induction h as [|[[u v] p] h IH]; intro A.
    - exists []. simpl. auto.
    - cbn [el_run accept replies]. unfold el_try_add.
      destruct (el_order und u v) as [a b] eqn:EO.
      pose proof (existsb_el u v A) as EX. rewrite EO in EX. cbn [fst snd] in EX. rewrite EX.
      pose proof (el_order_normal u v p) as EN. rewrite EO in EN. cbn [fst snd] in EN.
      change (rq_src (u, v, p)) with u. change (rq_tgt (u, v, p)) with v.
      assert (Pre : forall h A, exists T, accept unique und A h = A ++ T).
      { clear. induction h as [|x h IH]; intro A; simpl; [exists []; now rewrite app_nil_r|].
        destruct (unique && existsb (joins und (rq_src x) (rq_tgt x)) A); [apply IH|].
        destruct (IH (A ++ [x])) as [T HT]. exists (x :: T). now rewrite HT, <- app_assoc. }
      destruct (unique && existsb (joins und u v) A) eqn:RF.
      + destruct (IH A) as (rs & H1 & H2 & H3). rewrite H1. eexists. split; [reflexivity|].
        cbn [map snd negb]. split; [now f_equal|]. constructor; [|exact H3].
        cbn [fst e_source e_target e_bundle snd]. rewrite <- EN. split; [reflexivity|]. split; [reflexivity|].
        apply andb_prop in RF as [_ RF]. rewrite RF in EX.
        destruct (el_pos_first (map (normal und) A) a b) as (_ & _ & G & _).
        destruct (G EX) as ([[a' b'] q] & G1 & G2).
        unfold el_match in G2. cbn [fst snd] in G2. apply andb_prop in G2 as [G2 G3].
        apply Nat.eqb_eq in G2, G3. subst a' b'. exists q. split; [|discriminate].
        destruct (Pre h A) as [T ->]. rewrite map_app, nth_error_app1; [assumption|].
        assert (X : nth_error (map (normal und) A) (el_pos a b (map (normal und) A)) <> None) by (intro X; generalize (eq_trans (eq_sym G1) X); discriminate).
        apply nth_error_Some in X. exact X.
      + destruct (IH (A ++ [(u, v, p)])) as (rs & H1 & H2 & H3).
        rewrite map_app in H1. cbn [map] in H1. rewrite <- EN in H1. rewrite H1. eexists. split; [reflexivity|].
        cbn [map snd negb]. split; [now f_equal|]. constructor; [|exact H3].
        cbn [fst e_source e_target e_bundle snd]. rewrite <- EN. split; [reflexivity|]. split; [reflexivity|].
        exists p. split; [|auto].
        destruct (Pre h (A ++ [(u, v, p)])) as [T ->]. rewrite !map_app. cbn [map]. rewrite <- EN.
        rewrite nth_error_app1 by (rewrite app_length; simpl; lia).
        rewrite nth_error_app2, Nat.sub_diag by lia. reflexivity.
  Qed.

  Lemma el_edges_spec l :
    map (fun e => (e_source e, e_target e)) (el_edges l) = map fst l /\
    map e_bundle (el_edges l) = seq 0 (length l).
  Proof.
    unfold el_edges. generalize 0. induction l as [|[[a b] p] l IH]; intro s; [auto|].
    destruct (IH (S s)) as [H1 H2]. cbn [length seq combine map fst snd e_source e_target e_bundle].
    rewrite H1, H2. auto.
  Qed.
End EdgeListProofs.

(** Requests kept by a graph with unique edges join different pairs. *)
Lemma accept_unique und : forall h A,
  (forall i j x y, i < j -> nth_error A i = Some x -> nth_error A j = Some y ->
     joins und (rq_src y) (rq_tgt y) x = false) ->
  (forall i j x y, i < j -> nth_error (accept true und A h) i = Some x ->
     nth_error (accept true und A h) j = Some y ->
     joins und (rq_src y) (rq_tgt y) x = false).
Proof.
  induction h as [|z h IH]; intros A H; [exact H|]. cbn [accept andb].
  destruct (existsb (joins und (rq_src z) (rq_tgt z)) A) eqn:E; [now apply IH|].
  apply IH. intros i j x y L Hi Hj.
  destruct (lt_dec j (length A)) as [Lj|Lj].
  - rewrite nth_error_app1 in Hi, Hj by lia. eauto.
  - assert (Ej : j = length A).
    { assert (j < length (A ++ [z])) by (apply nth_error_Some; congruence).
      rewrite app_length in *. simpl in *. lia. }
    subst j. rewrite nth_error_app2, Nat.sub_diag in Hj by lia. injection Hj as <-.
    rewrite nth_error_app1 in Hi by lia. apply nth_error_In in Hi.
    destruct (joins und (rq_src z) (rq_tgt z) x) eqn:J; [|reflexivity].
    assert (existsb (joins und (rq_src z) (rq_tgt z)) A = true) by (apply existsb_exists; eauto).
    congruence.
Qed.

(** Without uniqueness everything is accepted. *)
Lemma accept_all und : forall h A, accept false und A h = A ++ h.
Proof.
  induction h as [|x h IH]; intro A; simpl; [now rewrite app_nil_r|].
  now rewrite IH, <- app_assoc.
Qed.

(** What a history produces, in one statement. *)
Theorem history c n0 h e0 :
  exists R rs,
    let A := accept (c_unique c) (is_undirected c) [] h in
    run c (empty_graph n0) h e0 = Ok (stored c (needed n0 h) R, rs) /\
    bounded (needed n0 h) R /\ rev R = A /\
    map snd rs = replies (c_unique c) (is_undirected c) [] h /\
    Forall2 (reply_ok c (stored c (needed n0 h) R)) h rs.
Proof.
  rewrite (empty_stored c). destruct (run_stored c h n0 [] e0) as (R & rs & H1 & H2 & _ & H3 & H4 & H5).
  - constructor.
  - exists R, rs. auto.
Qed.

Lemma edge_count_stored c n R : edge_count (stored c n R) = length R.
Proof. apply ent_el_length. Qed.
