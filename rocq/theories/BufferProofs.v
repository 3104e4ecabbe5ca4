(** Proofs about the buffered writer and reader and about the utilities. *)
From Coq Require Import ZArith List Bool Lia.
From Verif Require Import Outcome ListLemmas DeviceModel DeviceProofs.
Import ListNotations.
Local Open Scope Z_scope.

(** * Buffered writer *)
Definition logical (b : bwriter) : list Z := b_out b ++ firstn (Z.to_nat (b_pos b)) (b_buf b).
Definition bw_ok (n : Z) (b : bwriter) : Prop :=
  lenZ (b_buf b) = n /\ 0 <= b_pos b < n.
Definition hit (n pos : Z) (xs : list Z) : bool :=
  negb (pos =? 0) && ((pos + lenZ xs) mod n =? 0).

Lemma split_at (l : list Z) p : 0 <= p <= lenZ l ->
  exists a b, l = a ++ b /\ lenZ a = p.
Proof.
  intro H. exists (firstn (Z.to_nat p) l), (skipn (Z.to_nat p) l).
  rewrite firstn_skipn, lenZ_firstn. split; [reflexivity|lia].
Qed.

Lemma firstn_lenZ_app (a b : list Z) p : lenZ a = p -> firstn (Z.to_nat p) (a ++ b) = a.
Proof. intros <-. rewrite to_nat_lenZ. now apply firstn_eq_app. Qed.

Section W.
  Variable n : Z.
  Hypothesis Hn : 0 < n < 2 ^ 64.

  Lemma w_char b c : bw_ok n b ->
    exists b1, b_step b (BWrite (WChar c)) = Ok (b1, 1) /\ bw_ok n b1
      /\ logical b1 = logical b ++ [c] /\ b_pos b1 = (b_pos b + 1) mod n.
  Proof.
    intros [L P]. destruct b as [buf pos out]. cbn [b_buf b_pos b_out] in *.
    destruct (split_at buf pos) as (u & v & -> & Lu); [lia|].
    rewrite lenZ_app in L. cbn [b_step]. unfold b_write_char. cbn [b_buf b_pos b_out].
    destruct v as [|y v]; [change (lenZ (@nil Z)) with 0 in L; lia|]. rewrite lenZ_cons in L.
    rewrite store_span_app; [|easy|cbn [length]; lia]. cbn [bind app length skipn].
    unfold b_move. cbn [b_buf b_pos b_out]. unfold assert_then.
    destruct (Z.leb_spec 0 (pos + 1)); [|lia]. unfold b_size. cbn [bind b_buf b_pos].
    rewrite lenZ_app, lenZ_cons. unfold logical, bw_ok. cbn [b_buf b_pos b_out].
    rewrite firstn_lenZ_app by exact Lu.
    replace (u ++ c :: v) with ((u ++ [c]) ++ v) by now rewrite <- app_assoc.
    assert (Lc : lenZ (u ++ [c]) = pos + 1) by (rewrite lenZ_app, lenZ_cons; change (lenZ (@nil Z)) with 0; lia).
    destruct (Z.eqb_spec (pos + 1) (lenZ u + (1 + lenZ v))) as [E|E].
    - eexists. split; [reflexivity|]. unfold b_overflow. cbn [b_buf b_pos b_out].
      rewrite firstn_lenZ_app by exact Lc.
      change (Z.to_nat 0) with 0%nat. rewrite firstn_O, app_nil_r.
      replace (pos + 1) with n by lia. rewrite Z_mod_same_full.
      rewrite lenZ_app, Lc, <- app_assoc. repeat split; lia.
    - eexists. split; [reflexivity|]. cbn [b_buf b_pos b_out].
      rewrite firstn_lenZ_app by exact Lc.
      rewrite lenZ_app, Lc, <- app_assoc. pose proof (lenZ_nonneg v).
      rewrite Z.mod_small by lia. repeat split; lia.
  Qed.

  Lemma w_span b xs : bw_ok n b ->
    exists b1, b_step b (BWrite (WSpan xs)) = Ok (b1, lenZ xs) /\ bw_ok n b1
      /\ (if hit n (b_pos b) xs
          then b_pos b1 = b_pos b
               /\ logical b1 = logical b ++ xs ++ firstn (Z.to_nat (b_pos b)) (b_buf b)
          else b_pos b1 = (b_pos b + lenZ xs) mod n /\ logical b1 = logical b ++ xs).
  Proof.
    intros [L P]. destruct b as [buf pos out]. cbn [b_buf b_pos b_out] in *.
    destruct (split_at buf pos) as (u & v & -> & Lu); [lia|].
    rewrite lenZ_app in L. cbn [b_step]. unfold b_write, b_size. cbn [b_buf b_pos b_out].
    pose proof (lenZ_nonneg xs). pose proof (lenZ_nonneg v).
    rewrite lenZ_app. replace (lenZ u + lenZ v - pos) with (lenZ v) by lia.
    rewrite size_t_small by lia. unfold logical, bw_ok. cbn [b_buf b_pos b_out].
    rewrite (firstn_lenZ_app u v pos Lu).
    destruct (Z.ltb_spec (lenZ xs) (lenZ v)) as [C|C].
    - rewrite store_span_app; [|easy|unfold lenZ in *; lia]. cbn [bind].
      eexists. split; [reflexivity|]. cbn [b_buf b_pos b_out].
      assert (Lx : lenZ (u ++ xs) = pos + lenZ xs) by (rewrite lenZ_app; lia).
      rewrite app_assoc, (firstn_lenZ_app _ _ _ Lx).
      split; [rewrite lenZ_app, Lx, lenZ_skipn; unfold lenZ in *; lia|].
      unfold hit. rewrite Z.mod_small by lia.
      destruct (Z.eqb_spec pos 0); cbn [negb andb].
      + split; [reflexivity|]. now rewrite app_assoc.
      + destruct (Z.eqb_spec (pos + lenZ xs) 0); [lia|]. split; [reflexivity|]. now rewrite app_assoc.
    - (* the block reaches the end of the buffer *)
      destruct (split_at xs (lenZ v)) as (x1 & x2 & -> & L1); [lia|].
      rewrite (firstn_lenZ_app x1 x2 _ L1).
      assert (N1 : length x1 = length v) by (unfold lenZ in L1; lia).
      assert (N2 : Z.to_nat (lenZ v) = length x1) by (unfold lenZ; lia).
      rewrite store_span_app; [|easy|lia]. cbn [bind].
      rewrite N1, skipn_all, app_nil_r. rewrite lenZ_app in C |- *.
      replace (lenZ x1 + lenZ x2 - lenZ v) with (lenZ x2) by lia.
      rewrite N2. rewrite (skipn_eq_app (length x1) x1 x2) by reflexivity.
      rewrite L. unfold hit. rewrite lenZ_app.
      replace ((pos + (lenZ x1 + lenZ x2)) mod n) with (lenZ x2 mod n)
        by (replace (pos + (lenZ x1 + lenZ x2)) with (lenZ x2 + 1 * n) by lia; now rewrite Z_mod_plus_full).
      pose proof (lenZ_nonneg x2).
      pose proof (Z.mod_pos_bound (lenZ x2) n ltac:(lia)) as M.
      pose proof (Z.mod_le (lenZ x2) n ltac:(lia) ltac:(lia)) as M2.
      set (r := lenZ x2 mod n) in *.
      (* what is passed on and what is kept *)
      assert (K : exists y1 y2, x2 = y1 ++ y2 /\ lenZ y2 = r
        /\ (if r <? lenZ x2 then (out ++ u ++ x1) ++ firstn (Z.to_nat (lenZ x2 - r)) x2
            else out ++ u ++ x1) = (out ++ u ++ x1) ++ y1
        /\ (if r <? lenZ x2 then skipn (Z.to_nat (lenZ x2 - r)) x2 else x2) = y2).
      { destruct (Z.ltb_spec r (lenZ x2)).
        - exists (firstn (Z.to_nat (lenZ x2 - r)) x2), (skipn (Z.to_nat (lenZ x2 - r)) x2).
          rewrite firstn_skipn, lenZ_skipn. repeat split; auto. lia.
        - exists [], x2. rewrite app_nil_r. repeat split; auto. lia. }
      destruct K as (y1 & y2 & Ex & Ly & -> & ->). rewrite !Ex.
      destruct (Z.ltb_spec 0 r) as [R|R].
      + assert (St : store_span (u ++ x1) 0 y2 = Ok (y2 ++ skipn (length y2) (u ++ x1))).
        { apply (store_span_app [] (u ++ x1) y2 0 eq_refl). rewrite app_length. unfold lenZ in *. lia. }
        rewrite St. cbn [bind]. eexists. split; [reflexivity|]. cbn [b_buf b_pos b_out].
        rewrite (firstn_lenZ_app _ _ _ Ly).
        split; [rewrite lenZ_app, lenZ_skipn, lenZ_app; unfold lenZ in *; lia|].
        destruct (Z.eqb_spec r 0); [lia|]. rewrite andb_false_r. split; [reflexivity|].
        now rewrite <- !app_assoc.
      + assert (y2 = []) as -> by (destruct y2; [reflexivity|rewrite lenZ_cons in Ly; pose proof (lenZ_nonneg y2); lia]).
        eexists. split; [reflexivity|]. cbn [b_buf b_pos b_out].
        rewrite (firstn_lenZ_app _ _ _ Lu).
        split; [rewrite lenZ_app; lia|].
        destruct (Z.eqb_spec r 0); [|lia]. rewrite andb_true_r.
        destruct (Z.eqb_spec pos 0) as [E0|E0]; cbn [negb].
        * split; [lia|]. assert (u = []) as -> by (destruct u; [reflexivity|rewrite lenZ_cons in Lu; pose proof (lenZ_nonneg u); lia]).
          now rewrite !app_nil_r, <- !app_assoc.
        * split; [reflexivity|]. now rewrite !app_nil_r, <- !app_assoc.
  Qed.

  Lemma w_flush b : bw_ok n b ->
    bw_ok n (b_flush b) /\ logical (b_flush b) = logical b /\ b_pos (b_flush b) = 0
    /\ b_out (b_flush b) = logical b.
  Proof.
    intros [L P]. unfold b_flush, b_overflow, logical, bw_ok. cbn [b_buf b_pos b_out].
    change (Z.to_nat 0) with 0%nat. rewrite firstn_O, app_nil_r. repeat split; lia.
  Qed.

  (** Does some block write of [os] hit the boundary, [k] bytes after a flush? *)
  Fixpoint hits (k : Z) (os : list bop) : bool :=
    match os with
    | [] => false
    | BFlush :: r => hits 0 r
    | BWrite (WChar c) :: r => hits (k + 1) r
    | BWrite (WSpan xs) :: r => hit n (k mod n) xs || hits (k + lenZ xs) r
    end.

  Definition replies_of (os : list bop) : list Z := map (fun o => lenZ (bop_data o)) os.

  Lemma hit_mod k xs : hit n (k mod n) xs = negb (k mod n =? 0) && ((k + lenZ xs) mod n =? 0).
  Proof. unfold hit. now rewrite Zplus_mod_idemp_l. Qed.

  (** No byte is ever lost. *)
  Lemma w_run os : forall b, bw_ok n b ->
    exists b1, b_run b os = Ok (b1, replies_of os) /\ bw_ok n b1
      /\ lenZ (logical b) + lenZ (b_written os) <= lenZ (logical b1)
      /\ (forall k, b_pos b = k mod n ->
          if hits k os then lenZ (logical b) + lenZ (b_written os) < lenZ (logical b1)
          else logical b1 = logical b ++ b_written os).
  Proof.
    induction os as [|o os IH]; intros b Ok1.
    - exists b. cbn. split; [reflexivity|]. split; [exact Ok1|]. split; [lia|].
      intros k _. now rewrite app_nil_r.
    - change (b_written (o :: os)) with (bop_data o ++ b_written os).
      change (replies_of (o :: os)) with (lenZ (bop_data o) :: replies_of os).
      cbn [b_run]. destruct o as [[c|xs]|].
      + destruct (w_char b c Ok1) as (b1 & E & Ok2 & Lg & Ps). rewrite E. cbn [bind].
        destruct (IH b1 Ok2) as (b2 & R & Ok3 & Le & K). exists b2. rewrite R. cbn [bind bop_data wop_data].
        split; [reflexivity|]. split; [exact Ok3|]. rewrite Lg, (lenZ_app (logical b)) in Le.
        rewrite (lenZ_app [c]). split; [lia|]. intros k Hk. cbn [hits].
        specialize (K (k + 1)). rewrite Lg in K. rewrite (lenZ_app (logical b)) in K.
        rewrite <- app_assoc in K.
        rewrite Ps, Hk, Zplus_mod_idemp_l in K. specialize (K eq_refl).
        destruct (hits (k + 1) os); [lia|exact K].
      + destruct (w_span b xs Ok1) as (b1 & E & Ok2 & D). rewrite E. cbn [bind].
        destruct (IH b1 Ok2) as (b2 & R & Ok3 & Le & K). exists b2. rewrite R. cbn [bind bop_data wop_data].
        split; [reflexivity|]. split; [exact Ok3|]. rewrite (lenZ_app xs).
        pose proof (lenZ_firstn (Z.to_nat (b_pos b)) (b_buf b)) as Lf.
        destruct Ok1 as [Lb Pb]. rewrite Lb in Lf.
        destruct (hit n (b_pos b) xs) eqn:Ht; destruct D as [Ps Lg]; rewrite Lg in Le;
          rewrite !(lenZ_app (logical b)) in Le.
        * rewrite lenZ_app in Le. split; [lia|]. intros k Hk. cbn [hits].
          rewrite <- Hk, Ht. cbn [orb].
          unfold hit in Ht. rewrite andb_true_iff, negb_true_iff in Ht. destruct Ht as [Ht _].
          apply Z.eqb_neq in Ht. lia.
        * split; [lia|]. intros k Hk. cbn [hits]. rewrite <- Hk, Ht. cbn [orb].
          specialize (K (k + lenZ xs)). rewrite Lg in K. rewrite (lenZ_app (logical b)), <- app_assoc in K.
          rewrite Ps, Hk, Zplus_mod_idemp_l in K. specialize (K eq_refl).
          destruct (hits (k + lenZ xs) os); [lia|exact K].
      + destruct (w_flush b Ok1) as (Ok2 & Lg & Ps & _). cbn [b_step bind].
        destruct (IH (b_flush b) Ok2) as (b2 & R & Ok3 & Le & K). exists b2. rewrite R.
        cbn [bind bop_data app]. split; [reflexivity|]. split; [exact Ok3|].
        rewrite Lg in Le. split; [exact Le|]. intros k Hk. cbn [hits].
        specialize (K 0). rewrite Ps, Zmod_0_l, Lg in K. exact (K eq_refl).
  Qed.

  Definition since_flush_from (k : Z) (os : list bop) : Z :=
    fold_left (fun k o => match o with BWrite w => k + lenZ (wop_data w) | BFlush => 0 end) os k.

  Lemma hits_spec os : forall k, hits k os = true <->
    exists pre xs post, os = pre ++ BWrite (WSpan xs) :: post
      /\ since_flush_from k pre mod n <> 0 /\ (since_flush_from k pre + lenZ xs) mod n = 0.
  Proof.
    induction os as [|o os IH]; intro k.
    - cbn. split; [discriminate|]. intros (pre & xs & post & E & _). now destruct pre.
    - assert (G : forall k1, since_flush_from k [o] = k1 ->
        (hits k1 os = true <-> exists pre xs post, o :: os = (o :: pre) ++ BWrite (WSpan xs) :: post
          /\ since_flush_from k (o :: pre) mod n <> 0 /\ (since_flush_from k (o :: pre) + lenZ xs) mod n = 0)).
      { intros k1 <-. rewrite IH. split; intros (pre & xs & post & E & H).
        - exists pre, xs, post. split; [now rewrite E|exact H].
        - exists pre, xs, post. split; [now injection E|exact H]. }
      assert (S : (exists pre xs post, o :: os = pre ++ BWrite (WSpan xs) :: post
          /\ since_flush_from k pre mod n <> 0 /\ (since_flush_from k pre + lenZ xs) mod n = 0) <->
        (exists xs, o = BWrite (WSpan xs) /\ k mod n <> 0 /\ (k + lenZ xs) mod n = 0)
        \/ (exists pre xs post, o :: os = (o :: pre) ++ BWrite (WSpan xs) :: post
          /\ since_flush_from k (o :: pre) mod n <> 0 /\ (since_flush_from k (o :: pre) + lenZ xs) mod n = 0)).
      { split.
        - intros (pre & xs & post & E & H). destruct pre as [|p pre].
          + left. exists xs. cbn in E. injection E as -> _. split; [reflexivity|exact H].
          + right. assert (p = o) by (cbn in E; now injection E). subst p.
            exists pre, xs, post. split; [exact E|exact H].
        - intros [(xs & -> & H)|(pre & xs & post & E & H)].
          + exists [], xs, os. split; [reflexivity|exact H].
          + exists (o :: pre), xs, post. split; [exact E|exact H]. }
      rewrite S. clear S. destruct o as [[c|xs]|].
      + rewrite <- (G (k + 1)) by reflexivity. cbn [hits]. split; [auto|].
        intros [(xs & E & _)|H]; [discriminate|exact H].
      + rewrite <- (G (k + lenZ xs)) by reflexivity. cbn [hits].
        rewrite orb_true_iff, hit_mod, andb_true_iff, negb_true_iff, Z.eqb_neq, Z.eqb_eq.
        split; (intros [H|H]; [left|now right]).
        * exists xs. split; [reflexivity|exact H].
        * destruct H as (ys & E & H). injection E as <-. exact H.
      + rewrite <- (G 0) by reflexivity. cbn [hits]. split; [auto|].
        intros [(xs & E & _)|H]; [discriminate|exact H].
  Qed.
End W.

Lemma b_open_ok n : (0 < n)%nat -> bw_ok (Z.of_nat n) (b_open n) /\ logical (b_open n) = [].
Proof.
  intro H. unfold bw_ok, b_open, logical, lenZ. cbn [b_buf b_pos b_out].
  rewrite repeat_length. split; [lia|reflexivity].
Qed.

Theorem buffered_writer n os : (0 < n)%nat -> Z.of_nat n < 2 ^ 64 ->
  exists b, b_run (b_open n) os = Ok (b, replies_of os)
    /\ (b_out (b_flush b) = b_written os <-> ~ boundary_hit (Z.of_nat n) os)
    /\ (boundary_hit (Z.of_nat n) os -> lenZ (b_written os) < lenZ (b_out (b_flush b))).
Proof.
  intros H1 H2. destruct (b_open_ok n H1) as [Ok1 L0].
  destruct (w_run (Z.of_nat n) ltac:(lia) os (b_open n) Ok1) as (b & R & Ok2 & Le & K).
  exists b. split; [exact R|]. destruct (w_flush (Z.of_nat n) ltac:(lia) b Ok2) as (_ & _ & _ & ->).
  specialize (K 0 eq_refl). rewrite L0 in *. change (lenZ (@nil Z)) with 0 in *. cbn [app] in K.
  pose proof (hits_spec (Z.of_nat n) ltac:(lia) os 0) as HS. fold (boundary_hit (Z.of_nat n) os) in HS.
  destruct (hits (Z.of_nat n) 0 os).
  - assert (boundary_hit (Z.of_nat n) os) as B by now apply HS.
    split; [|intros _; lia]. split; [|contradiction]. intro E. rewrite E in K. lia.
  - assert (~ boundary_hit (Z.of_nat n) os) as B by (intro B; apply HS in B; discriminate).
    split; [|contradiction]. split; auto.
Qed.

(** * Buffered reader *)

(** The characters still to be delivered. *)
Definition r_stream (b : breader) : list Z :=
  slice (r_buf b) (r_ptr b) (r_end b - r_ptr b) ++ r_src b.

Section R.
  Variable n : Z.
  Hypothesis Hn : 0 < n < 2 ^ 64.

  Definition br_ok (b : breader) : Prop :=
    lenZ (r_buf b) = n /\ 0 <= r_ptr b <= r_end b /\ r_end b <= n.
  Definition primed (b : breader) : Prop := r_ptr b = r_end b -> r_src b = [].

  (** An explicit window: consumed, waiting, stale. *)
  Definition mk_reader (u w v src : list Z) : breader :=
    {| r_buf := u ++ w ++ v; r_ptr := lenZ u; r_end := lenZ u + lenZ w; r_src := src |}.

  Lemma reader_window b : br_ok b -> exists u w v, b = mk_reader u w v (r_src b) /\ lenZ (u ++ w ++ v) = n.
  Proof.
    intros (L & P & E). destruct b as [buf ptr en src]. cbn [r_buf r_ptr r_end r_src] in *.
    destruct (split_at buf en) as (x & v & -> & Lx); [lia|].
    destruct (split_at x ptr) as (u & w & -> & Lu); [lia|].
    exists u, w, v. unfold mk_reader. rewrite app_assoc. split; [|exact L].
    rewrite lenZ_app in Lx. f_equal; lia.
  Qed.
  Lemma mk_reader_ok u w v src : lenZ (u ++ w ++ v) = n -> br_ok (mk_reader u w v src).
  Proof.
    intro H. unfold br_ok, mk_reader. cbn [r_buf r_ptr r_end]. rewrite !lenZ_app in *.
    pose proof (lenZ_nonneg u). pose proof (lenZ_nonneg w). pose proof (lenZ_nonneg v). lia.
  Qed.
  Lemma mk_reader_stream u w v src : r_stream (mk_reader u w v src) = w ++ src.
  Proof.
    unfold r_stream, mk_reader. cbn [r_buf r_ptr r_end r_src]. f_equal.
    rewrite slice_app by reflexivity. replace (lenZ u + lenZ w - lenZ u) with (lenZ w) by lia.
    rewrite to_nat_lenZ. now apply firstn_eq_app.
  Qed.

  Lemma underflow_window b : lenZ (r_buf b) = n ->
    exists w v src, r_underflow b = mk_reader [] w v src /\ lenZ (w ++ v) = n
      /\ r_src b = w ++ src /\ (lenZ w = n \/ src = []).
  Proof.
    intro L. unfold r_underflow, dev_read, r_size. rewrite L.
    set (w := firstn (Z.to_nat n) (r_src b)).
    exists w, (skipn (length w) (r_buf b)), (skipn (Z.to_nat n) (r_src b)).
    assert (Lw : (length w <= length (r_buf b))%nat).
    { unfold w. rewrite firstn_length. unfold lenZ in L. lia. }
    split.
    { unfold mk_reader. f_equal. }
    split. { rewrite lenZ_app, lenZ_skipn. unfold lenZ in *. lia. }
    split. { unfold w. now rewrite firstn_skipn. }
    unfold w. rewrite lenZ_firstn.
    destruct (Z.le_gt_cases n (lenZ (r_src b))); [left; lia|right].
    apply skipn_all2. unfold lenZ in *. lia.
  Qed.

  Lemma r_move_window u w1 w2 v src (k : Z) :
    lenZ (u ++ (w1 ++ w2) ++ v) = n -> k = lenZ w1 -> w1 <> [] ->
    exists b, r_move (mk_reader u (w1 ++ w2) v src) k = Ok b /\ br_ok b /\ primed b
      /\ r_stream b = w2 ++ src.
  Proof.
    intros L -> Nw. unfold r_move. cbn [r_ptr r_end r_buf r_src mk_reader].
    pose proof (lenZ_nonneg u). pose proof (lenZ_nonneg w1). pose proof (lenZ_nonneg w2).
    unfold assert_then. destruct (Z.leb_spec 0 (lenZ u + lenZ w1)); [|lia].
    rewrite lenZ_app. eexists. split; [reflexivity|].
    destruct (Z.eqb_spec (lenZ u + lenZ w1) (lenZ u + (lenZ w1 + lenZ w2))) as [E|E].
    - assert (w2 = []) as -> by (destruct w2; [reflexivity|rewrite lenZ_cons in E; pose proof (lenZ_nonneg w2); lia]).
      rewrite app_nil_r in *.
      destruct (underflow_window {| r_buf := u ++ w1 ++ v; r_ptr := lenZ u + lenZ w1;
        r_end := lenZ u + (lenZ w1 + lenZ (@nil Z)); r_src := src |} L) as (w & v' & src' & -> & L' & Es & Em).
      split; [now apply mk_reader_ok|]. split.
      + unfold primed, mk_reader. cbn [r_ptr r_end r_src]. change (lenZ (@nil Z)) with 0. intro Z0.
        destruct Em; [lia|assumption].
      + rewrite mk_reader_stream. cbn [r_src app] in *. now rewrite Es.
    - replace {| r_buf := u ++ (w1 ++ w2) ++ v; r_ptr := lenZ u + lenZ w1;
        r_end := lenZ u + (lenZ w1 + lenZ w2); r_src := src |} with (mk_reader (u ++ w1) w2 v src).
      2:{ unfold mk_reader. rewrite lenZ_app, <- !app_assoc. f_equal; lia. }
      split. { apply mk_reader_ok. rewrite <- !app_assoc in *. exact L. }
      split. { unfold primed, mk_reader. cbn [r_ptr r_end]. rewrite lenZ_app. lia. }
      apply mk_reader_stream.
  Qed.

  Lemma r_get_stream b c rest : br_ok b -> primed b -> r_stream b = c :: rest ->
    exists b1, r_get b = Ok (b1, c) /\ br_ok b1 /\ primed b1 /\ r_stream b1 = rest.
  Proof.
    intros Ok1 Pr S. destruct (reader_window b Ok1) as (u & w & v & Eb & L). rewrite Eb in *.
    rewrite mk_reader_stream in S. destruct w as [|y w].
    - assert (r_src b = []) as E0.
      { apply Pr. cbn [r_ptr r_end mk_reader]. change (lenZ (@nil Z)) with 0. lia. }
      rewrite E0 in S. discriminate.
    - injection S as -> S. unfold r_get.
      destruct (r_move_window u [c] w v (r_src b) 1) as (b1 & M & Ok2 & Pr2 & S2); [exact L|reflexivity|discriminate|].
      exists b1. cbn [app] in M. rewrite M. cbn [bind]. split; [|rewrite S2; auto].
      f_equal. f_equal. unfold r_peek, mk_reader. cbn [r_ptr r_end r_buf].
      rewrite lenZ_cons. pose proof (lenZ_nonneg w).
      destruct (Z.ltb_spec (lenZ u) (lenZ u + (1 + lenZ w))); [|lia].
      apply at_char_app.
  Qed.

  Lemma firstn_add {A} d r (l : list A) : firstn (d + r) l = firstn d l ++ firstn r (skipn d l).
  Proof.
    revert l. induction d as [|d IH]; intro l; [reflexivity|].
    destruct l; cbn [Nat.add firstn skipn app]; [now rewrite firstn_nil|]. now rewrite IH.
  Qed.

  Lemma r_read_stream b k : br_ok b ->
    exists b1, r_read b (Z.of_nat k) = Ok (b1, firstn k (r_stream b)) /\ br_ok b1 /\ primed b1
      /\ r_stream b1 = skipn k (r_stream b).
  Proof.
    intros Ok1. destruct (reader_window b Ok1) as (u & w & v & Eb & L).
    rewrite Eb. set (src := r_src b) in *. clearbody src. clear Eb.
    rewrite mk_reader_stream. unfold r_read. cbn [r_ptr r_end r_buf r_src mk_reader].
    replace (lenZ u + lenZ w - lenZ u) with (lenZ w) by lia.
    pose proof (lenZ_nonneg u). pose proof (lenZ_nonneg w). pose proof (lenZ_nonneg v).
    assert (lenZ w <= n) by (rewrite !lenZ_app in L; lia).
    rewrite size_t_small by lia.
    destruct (Z.ltb_spec (Z.of_nat k) (lenZ w)) as [C|C].
    - rewrite load_span_app by (try rewrite lenZ_app; lia). cbn [bind]. rewrite Nat2Z.id.
      eexists. rewrite firstn_le_app by (unfold lenZ in *; lia).
      rewrite (firstn_le_app k w src) by (unfold lenZ in *; lia). split; [reflexivity|].
      assert (F : lenZ (firstn k w) = Z.of_nat k) by (rewrite lenZ_firstn; lia).
      replace {| r_buf := u ++ w ++ v; r_ptr := lenZ u + Z.of_nat k; r_end := lenZ u + lenZ w; r_src := src |}
        with (mk_reader (u ++ firstn k w) (skipn k w) v src).
      2:{ unfold mk_reader. rewrite lenZ_app, lenZ_skipn, F, <- app_assoc.
          rewrite (app_assoc (firstn k w)), firstn_skipn. f_equal; lia. }
      split. { apply mk_reader_ok. rewrite <- app_assoc, (app_assoc (firstn k w)), firstn_skipn. exact L. }
      split. { unfold primed, mk_reader. cbn [r_ptr r_end]. rewrite lenZ_skipn. lia. }
      rewrite mk_reader_stream. rewrite skipn_app. f_equal.
      now replace (k - length w)%nat with 0%nat by (unfold lenZ in *; lia).
    - rewrite load_span_app by (try rewrite lenZ_app; lia). cbn [bind].
      rewrite to_nat_lenZ, firstn_eq_app by reflexivity.
      unfold r_size. cbn [r_buf mk_reader]. rewrite L.
      set (count := Z.of_nat k - lenZ w).
      pose proof (Z.mod_pos_bound count n ltac:(lia)) as M.
      pose proof (Z.mod_le count n ltac:(unfold count; lia) ltac:(lia)) as M2.
      set (r := count mod n) in *.
      set (d := Z.to_nat (count - r)).
      assert (D : (if r <? count then dev_read src (count - r) else ([], src)) = (firstn d src, skipn d src)).
      { destruct (Z.ltb_spec r count); [reflexivity|].
        unfold d. replace (count - r) with 0 by lia. reflexivity. }
      rewrite D.
      destruct (underflow_window {| r_buf := u ++ w ++ v; r_ptr := lenZ u; r_end := lenZ u + lenZ w;
        r_src := skipn d src |} L) as (w' & v' & src' & -> & L' & Es & Em).
      cbn [r_src] in Es.
      replace (r_end (mk_reader [] w' v' src') - r_ptr (mk_reader [] w' v' src')) with (lenZ w')
        by (cbn; change (lenZ (@nil Z)) with 0; lia).
      assert (Wn : lenZ w' <= n) by (rewrite lenZ_app in L'; pose proof (lenZ_nonneg v'); lia).
      assert (F : firstn k (w ++ src) = w ++ firstn d src ++ firstn (Z.to_nat r) w').
      { rewrite firstn_app, firstn_all2 by (unfold lenZ in *; lia). f_equal.
        replace (k - length w)%nat with (d + Z.to_nat r)%nat by (unfold d, count, lenZ in *; lia).
        rewrite firstn_add, Es. f_equal. rewrite firstn_app.
        destruct Em as [Em| ->].
        - replace (Z.to_nat r - length w')%nat with 0%nat by (unfold lenZ in *; lia).
          now rewrite firstn_O, app_nil_r.
        - now rewrite firstn_nil, app_nil_r. }
      assert (G : skipn k (w ++ src) = skipn (Z.to_nat r) (w' ++ src')).
      { rewrite skipn_ge_app by (unfold lenZ in *; lia). rewrite <- Es, skipn_skipn_add. f_equal.
        unfold d, count, lenZ in *. lia. }
      rewrite F, G. pose proof (lenZ_nonneg w').
      destruct (Z.ltb_spec 0 (Z.min r (lenZ w'))) as [R|R].
      + set (w1 := firstn (Z.to_nat r) w'). set (w2 := skipn (Z.to_nat r) w').
        assert (Ew : w' = w1 ++ w2) by (unfold w1, w2; now rewrite firstn_skipn).
        assert (L1 : lenZ w1 = Z.min r (lenZ w')) by (unfold w1; rewrite lenZ_firstn; lia).
        rewrite <- L1 in *. rewrite Ew.
        assert (Ld : load_span (r_buf (mk_reader [] (w1 ++ w2) v' src')) (r_ptr (mk_reader [] (w1 ++ w2) v' src')) (lenZ w1) = Ok w1).
        { cbn [r_buf r_ptr mk_reader].
          rewrite load_span_app; [|reflexivity|].
          - now rewrite to_nat_lenZ, <- app_assoc, firstn_eq_app.
          - rewrite !lenZ_app. pose proof (lenZ_nonneg w1). pose proof (lenZ_nonneg w2). pose proof (lenZ_nonneg v'). lia. }
        rewrite Ld. cbn [bind].
        destruct (r_move_window [] w1 w2 v' src' (lenZ w1)) as (b1 & Mv & Ok2 & Pr & S).
        { cbn [app]. rewrite <- Ew. exact L'. } { reflexivity. }
        { intro E1. rewrite E1 in R. change (lenZ (@nil Z)) with 0 in R. lia. }
        rewrite Mv. cbn [bind]. exists b1. split; [reflexivity|]. split; [exact Ok2|]. split; [exact Pr|].
        rewrite S. rewrite <- Ew. unfold w2. rewrite skipn_app. f_equal.
        destruct Em as [Em| ->]; [|now rewrite skipn_nil].
        now replace (Z.to_nat r - length w')%nat with 0%nat by (unfold lenZ in *; lia).
      + assert (Z.to_nat r = 0%nat \/ w' = []) as Z0.
        { destruct w'; [now right|left]. rewrite lenZ_cons in R. pose proof (lenZ_nonneg w'). lia. }
        exists (mk_reader [] w' v' src').
        assert (E1 : firstn (Z.to_nat r) w' = []) by (destruct Z0 as [-> | ->]; [reflexivity|apply firstn_nil]).
        rewrite E1, app_nil_r. split; [reflexivity|]. split; [now apply mk_reader_ok|]. split.
        * unfold primed, mk_reader. cbn [r_ptr r_end r_src]. change (lenZ (@nil Z)) with 0. intro Z1.
          destruct Em; [lia|assumption].
        * rewrite mk_reader_stream. destruct Z0 as [-> | E0]; [reflexivity|]. rewrite E0 in *.
          destruct Em as [Em| ->]; [change (lenZ (@nil Z)) with 0 in Em; lia|].
          cbn [app]. now rewrite skipn_nil.
  Qed.

  Lemma r_run_primed os : forall b rest outs, br_ok b -> primed b ->
    tape_reads (r_stream b) os = Some (rest, outs) ->
    exists b1, r_run b os = Ok (b1, outs) /\ br_ok b1 /\ primed b1 /\ r_stream b1 = rest.
  Proof.
    induction os as [|[|k] os IH]; intros b rest outs Ok1 Pr T; cbn [tape_reads] in T.
    - injection T as <- <-. exists b. auto.
    - destruct (r_stream b) as [|c s] eqn:S; [discriminate|].
      destruct (tape_reads s os) as [[t xs]|] eqn:E; [|discriminate]. injection T as <- <-.
      destruct (r_get_stream b c s Ok1 Pr S) as (b1 & G & Ok2 & Pr2 & <-).
      destruct (IH b1 t xs Ok2 Pr2 E) as (b2 & R & H). exists b2.
      cbn [r_run r_step]. rewrite G. cbn [bind]. rewrite R. auto.
    - destruct (tape_reads (skipn k (r_stream b)) os) as [[t xs]|] eqn:E; [|discriminate]. injection T as <- <-.
      destruct (r_read_stream b k Ok1) as (b1 & G & Ok2 & Pr2 & S).
      rewrite <- S in E. destruct (IH b1 t xs Ok2 Pr2 E) as (b2 & R & H). exists b2.
      cbn [r_run r_step]. rewrite G. cbn [bind]. rewrite R. auto.
  Qed.
End R.

Theorem buffered_reader n src k os rest outs : (0 < n)%nat -> Z.of_nat n < 2 ^ 64 ->
  tape_reads src (RRead k :: os) = Some (rest, outs) ->
  exists b, r_run (r_open n src) (RRead k :: os) = Ok (b, outs)
    /\ r_stream b = rest /\ r_eof b = false.
Proof.
  intros H1 H2 T.
  assert (Ok1 : br_ok (Z.of_nat n) (r_open n src)).
  { unfold br_ok, r_open, lenZ. cbn [r_buf r_ptr r_end]. rewrite repeat_length. lia. }
  assert (S : r_stream (r_open n src) = src) by reflexivity.
  cbn [tape_reads] in T. rewrite <- S in T.
  destruct (tape_reads (skipn k (r_stream (r_open n src))) os) as [[t xs]|] eqn:E; [|discriminate].
  injection T as <- <-.
  destruct (r_read_stream (Z.of_nat n) ltac:(lia) (r_open n src) k Ok1) as (b1 & G & Ok2 & Pr & S1).
  rewrite <- S1 in E.
  destruct (r_run_primed (Z.of_nat n) ltac:(lia) os b1 t xs Ok2 Pr E) as (b2 & R & Ok3 & _ & S2).
  exists b2. cbn [r_run r_step]. rewrite G. cbn [bind]. rewrite R. cbn [bind].
  split; [reflexivity|]. split; [exact S2|]. unfold r_eof. apply Z.ltb_ge.
  destruct Ok3 as (_ & P & _). lia.
Qed.

(** * Reading up to a terminator *)

(** When a character satisfies a predicate. *)
Definition matches (p : pred) (c : Z) : Prop :=
  match p with
  | PChar d => c = d
  | PString l => In c l \/ c = 0
  | PFun f => f c = true
  end.
Lemma pred_eval_iff p c : pred_eval p c = true <-> matches p c.
Proof.
  destruct p as [d|l|f]; cbn [pred_eval matches]; [rewrite Z.eqb_eq; split; congruence| |reflexivity].
  rewrite orb_true_iff, Z.eqb_eq, existsb_exists. split.
  - intros [(x & H & E)|E]; [left; apply Z.eqb_eq in E; now subst|now right].
  - intros [H|E]; [left; exists c; now rewrite Z.eqb_refl|now right].
Qed.
Lemma pred_eval_false p c : pred_eval p c = false <-> ~ matches p c.
Proof. rewrite <- pred_eval_iff. destruct (pred_eval p c); split; congruence. Qed.

(** The longest prefix of at most [size] characters none of which satisfies [p]. *)
Fixpoint free_prefix (p : Z -> bool) (size : nat) (s : list Z) : list Z :=
  match size, s with
  | S k, c :: r => if p c then [] else c :: free_prefix p k r
  | _, _ => []
  end.

Lemma free_prefix_spec p : forall size s,
  exists rest, s = free_prefix p size s ++ rest
    /\ Forall (fun c => p c = false) (free_prefix p size s)
    /\ (length (free_prefix p size s) <= size)%nat
    /\ (length (free_prefix p size s) = size \/ match rest with [] => True | c :: _ => p c = true end).
Proof.
  induction size as [|k IH]; intros s; cbn [free_prefix].
  - exists s. repeat split; auto.
  - destruct s as [|c r]; [exists []; repeat split; auto; cbn; lia|].
    destruct (p c) eqn:E.
    + exists (c :: r). repeat split; auto. cbn. lia.
    + destruct (IH r) as (rest & E1 & F & L & D). exists rest. cbn [app length]. rewrite <- E1.
      split; [reflexivity|]. split; [now constructor|]. split; [lia|]. destruct D; [left; lia|now right].
Qed.

Lemma till_copy_free p : forall n s, till_copy p n s = free_prefix (pred_eval p) n s.
Proof. induction n as [|n IH]; intros [|c s]; cbn; auto. now rewrite IH. Qed.

Lemma mem_move_tape a x r : mem_move (mem_tape (a, x ++ r)) (lenZ x) = Ok (mem_tape (a ++ x, r)).
Proof.
  unfold mem_move, mem_tape, mem_end. cbn [m_data m_ptr fst snd].
  rewrite !lenZ_app. pose proof (lenZ_nonneg a). pose proof (lenZ_nonneg x). pose proof (lenZ_nonneg r).
  unfold assert_then.
  replace ((0 <=? lenZ a + lenZ x) && (lenZ a + lenZ x <=? lenZ a + (lenZ x + lenZ r))) with true
    by (symmetry; rewrite andb_true_iff, !Z.leb_le; lia).
  now rewrite <- app_assoc.
Qed.

Theorem till_buffered_spec p a s size :
  exists rest, s = free_prefix (pred_eval p) size s ++ rest
    /\ till_buffered 2 p (mem_tape (a, s)) size
       = Ok (mem_tape (a ++ free_prefix (pred_eval p) size s, rest), free_prefix (pred_eval p) size s).
Proof.
  destruct (free_prefix_spec (pred_eval p) size s) as (rest & E & F & L & D).
  exists rest. split; [exact E|].
  cbn [till_buffered]. rewrite mem_input_tape. cbn [snd]. rewrite till_copy_free.
  set (x := free_prefix (pred_eval p) size s) in *.
  assert (M : mem_move (mem_tape (a, s)) (lenZ x) = Ok (mem_tape (a ++ x, rest))).
  { rewrite E at 1. apply mem_move_tape. }
  rewrite M. cbn [bind].
  destruct ((size - length x =? 0)%nat || (length s =? 0)%nat || negb (length x =? Nat.min (length s) size)%nat) eqn:C;
    [reflexivity|].
  rewrite !orb_false_iff, negb_false_iff in C. destruct C as [[C1 C2] C3].
  apply Nat.eqb_neq in C1, C2. apply Nat.eqb_eq in C3.
  assert (length s = length x) as Ls by lia.
  assert (rest = []) as ->.
  { pose proof (f_equal (@length Z) E) as LE. rewrite app_length in LE.
    destruct rest; [reflexivity|cbn in LE; lia]. }
  rewrite mem_input_tape. cbn [snd].
  assert (T : forall k, till_copy p k [] = []) by (intros [|k]; reflexivity). rewrite T.
  change (lenZ (@nil Z)) with (lenZ (@nil Z)).
  pose proof (mem_move_tape (a ++ x) [] []) as M0. cbn [app] in M0. rewrite M0. cbn [bind].
  cbn [length]. rewrite Nat.eqb_refl, orb_true_r. cbn [orb bind]. now rewrite !app_nil_r.
Qed.

(** Devices without a buffer. *)
Theorem till_simple_spec p size : forall a s,
  exists rest, s = free_prefix (pred_eval p) size s ++ rest
    /\ till_simple p (mem_tape (a, s)) size =
       (let x := free_prefix (pred_eval p) size s in
        if (length x =? size)%nat then mem_tape (a ++ x, rest)
        else match rest with
             | [] => {| m_data := a ++ x; m_ptr := lenZ (a ++ x) + 1 |}
             | c :: rest1 => mem_tape ((a ++ x) ++ [c], rest1)
             end, free_prefix (pred_eval p) size s).
Proof.
  induction size as [|k IH]; intros a s.
  - exists s. split; [reflexivity|]. cbn. now rewrite app_nil_r.
  - destruct s as [|c s]; cbn [free_prefix].
    + exists []. split; [reflexivity|]. cbn [till_simple]. unfold mem_get. rewrite mem_peek_nil.
      cbn [mem_tape m_data m_ptr fst snd]. unfold mem_eof, mem_end. cbn [m_data m_ptr].
      rewrite !app_nil_r. destruct (Z.ltb_spec (lenZ a) (lenZ a + 1)); [|lia]. cbn [orb length Nat.eqb].
      reflexivity.
    + cbn [till_simple]. rewrite mem_get_cons, mem_eof_tape. cbn [orb].
      destruct (pred_eval p c) eqn:E.
      * exists (c :: s). split; [reflexivity|]. cbn [length Nat.eqb]. now rewrite app_nil_r.
      * destruct (IH (a ++ [c]) s) as (rest & E1 & R). exists rest. cbn [app]. rewrite <- E1.
        split; [reflexivity|]. rewrite R. cbn [length Nat.eqb]. cbv zeta.
        replace (a ++ c :: free_prefix (pred_eval p) k s) with ((a ++ [c]) ++ free_prefix (pred_eval p) k s)
          by now rewrite <- app_assoc.
        reflexivity.
Qed.

(** * Skipping *)
Theorem skip_spec p : forall s a, exists x rest, s = x ++ rest
    /\ Forall (fun c => pred_eval p c = true) x
    /\ match rest with [] => True | c :: _ => pred_eval p c = false end
    /\ skip (S (length s)) p (mem_tape (a, s)) =
       (if match rest with [] => pred_eval p 0 | _ => false end then AssertFail
        else Ok (mem_tape (a ++ x, rest))).
Proof.
  induction s as [|c s IH]; intro a.
  - exists [], []. repeat split; auto. cbn [skip length]. rewrite mem_eof_tape, mem_peek_nil. cbn [negb andb].
    destruct (pred_eval p 0); [|now rewrite app_nil_r].
    unfold mem_move, mem_end, mem_tape. cbn [m_data m_ptr fst snd]. rewrite app_nil_r.
    replace ((0 <=? lenZ a + 1) && (lenZ a + 1 <=? lenZ a)) with false; [reflexivity|].
    symmetry. rewrite andb_false_iff, !Z.leb_gt. lia.
  - cbn [length]. destruct (pred_eval p c) eqn:E.
    + destruct (IH (a ++ [c])) as (x & rest & -> & F & R & Sk). exists (c :: x), rest.
      split; [reflexivity|]. split; [now constructor|]. split; [exact R|].
      set (fuel := S (length (x ++ rest))) in *. cbn [skip].
      rewrite mem_eof_tape, mem_peek_cons, E. cbn [negb andb].
      pose proof (mem_move_tape a [c] (x ++ rest)) as M. cbn [app lenZ length] in M.
      change (lenZ [c]) with 1 in M. rewrite M. cbn [bind]. rewrite Sk.
      rewrite <- app_assoc. reflexivity.
    + exists [], (c :: s). split; [reflexivity|]. split; [constructor|]. split; [exact E|].
      set (fuel := S (length s)) in *. cbn [skip]. rewrite mem_eof_tape, mem_peek_cons, E. cbn [negb andb].
      now rewrite app_nil_r.
Qed.

(** * Repeating a character *)
Theorem repeat_memory_fits a r c k : (k <= length r)%nat ->
  repeat_memory (mem_tape (a, r)) c (Z.of_nat k) = Ok (mem_tape (a ++ repeat c k, skipn k r)).
Proof.
  intro H. unfold repeat_memory, mem_buffer_size. rewrite mem_tape_rest. cbn [snd].
  destruct (Z.leb_spec (Z.of_nat k) (lenZ r)) as [C|C]; [|unfold lenZ in C; lia].
  rewrite Nat2Z.id. cbn [m_data m_ptr mem_tape fst snd].
  rewrite store_span_app; [|reflexivity|rewrite repeat_length; lia]. cbn [bind].
  rewrite repeat_length.
  pose proof (mem_move_tape a (repeat c k) (skipn k r)) as M.
  unfold lenZ in M at 1. rewrite repeat_length in M. exact M.
Qed.
Theorem repeat_memory_overflow a r c k : (length r < k)%nat ->
  repeat_memory (mem_tape (a, r)) c (Z.of_nat k) = UB.
Proof.
  intro H. unfold repeat_memory, mem_buffer_size. rewrite mem_tape_rest. cbn [snd].
  destruct (Z.leb_spec (Z.of_nat k) (lenZ r)) as [C|C]; [unfold lenZ in C; lia|].
  rewrite to_nat_lenZ. cbn [m_data m_ptr mem_tape fst snd].
  rewrite store_span_app; [|reflexivity|rewrite repeat_length; lia]. cbn [bind].
  rewrite repeat_length, skipn_all.
  pose proof (mem_move_tape a (repeat c (length r)) []) as M.
  unfold lenZ in M at 1. rewrite repeat_length in M.
  fold (lenZ r) in M. unfold mem_tape in M. cbn [fst snd] in M. rewrite M. cbn [bind].
  unfold mem_end. cbn [m_data m_ptr]. rewrite app_nil_r, Z.sub_diag, Z.min_r by lia. reflexivity.
Qed.
