(** Proofs about buffering over devices that take or give less than they are asked for. *)
From Coq Require Import ZArith List Bool Lia.
From Verif Require Import Outcome DeviceModel DeviceProofs ShortModel.
Import ListNotations.
Local Open Scope Z_scope.

Section Writer.
  Context {D : Type}.
  Variable dwrite : D -> list Z -> D * Z.

  (** The device after it was given the blocks [ps]. *)
  Definition given (d : D) (ps : list (list Z)) : D := fold_left (fun d p => fst (dwrite d p)) ps d.
  Lemma given_app d a b : given d (a ++ b) = given (given d a) b.
  Proof. unfold given. apply fold_left_app. Qed.

  Definition sim (d0 : D) (b : bwriter) (s : swriter D) : Prop :=
    sw_buf s = b_buf b /\ sw_pos s = b_pos b /\ exists ps, concat ps = b_out b /\ sw_dev s = given d0 ps.

  Lemma sim_grow d0 ps out p : concat ps = out -> exists ps', concat ps' = out ++ p /\ fst (dwrite (given d0 ps) p) = given d0 ps'.
  Proof. intros H. exists (ps ++ [p]). rewrite concat_app. cbn. rewrite app_nil_r, H, given_app. split; reflexivity. Qed.

  Lemma sim_overflow d0 b s : sim d0 b s -> sim d0 (b_overflow b) (sw_overflow dwrite s).
  Proof.
    intros (E1 & E2 & ps & C & E3). unfold sim, sw_overflow, b_overflow. cbn. rewrite E1, E2, E3.
    destruct (sim_grow d0 ps _ (firstn (Z.to_nat (b_pos b)) (b_buf b)) C) as (ps' & C' & G). repeat split; auto. eauto.
  Qed.

  Lemma sim_step d0 b s o b' n : sim d0 b s -> b_step b o = Ok (b', n) -> exists s', sw_step dwrite s o = Ok (s', n) /\ sim d0 b' s'.
  Proof.
    intros S H. pose proof S as (E1 & E2 & ps & C & E3). destruct o as [[c|xs]|]; cbn [b_step sw_step] in *.
    - unfold b_write_char in H. unfold sw_write_char. rewrite E1, E2. destruct (store_span (b_buf b) (b_pos b) [c]) as [d| | | |]; cbn [bind] in *; try discriminate.
      unfold b_move in H. unfold sw_move. cbn [b_buf b_pos b_out sw_buf sw_pos sw_dev] in *. unfold b_size in H. cbn [b_buf] in H.
      destruct (0 <=? b_pos b + 1); cbn [assert_then bind] in *; [|discriminate]. injection H as <- <-. eexists. split; [reflexivity|].
      assert (S1 : sim d0 {| b_buf := d; b_pos := b_pos b + 1; b_out := b_out b |} {| sw_buf := d; sw_pos := b_pos b + 1; sw_dev := sw_dev s |}) by (unfold sim; cbn; eauto).
      destruct (b_pos b + 1 =? lenZ d); [apply sim_overflow|]; exact S1.
    - unfold b_write in H. unfold sw_write. rewrite E1, E2. unfold b_size in H. destruct (lenZ xs <? size_t (lenZ (b_buf b) - b_pos b)).
      + destruct (store_span (b_buf b) (b_pos b) xs) as [d| | | |]; cbn [bind] in *; try discriminate. injection H as <- <-.
        eexists. split; [reflexivity|]. unfold sim. cbn. eauto.
      + destruct (store_span (b_buf b) (b_pos b) _) as [d| | | |]; cbn [bind] in *; try discriminate.
        destruct (sim_grow d0 ps _ d C) as (ps1 & C1 & G1). rewrite E3, G1.
        set (rest := skipn _ xs) in *. set (cnt := lenZ xs - _) in *. set (rem := cnt mod _) in *.
        set (dev := if rem <? cnt then fst (dwrite (given d0 ps1) (firstn (Z.to_nat (cnt - rem)) rest)) else given d0 ps1).
        set (out := if rem <? cnt then (b_out b ++ d) ++ firstn (Z.to_nat (cnt - rem)) rest else b_out b ++ d) in *.
        assert (X : exists ps2, concat ps2 = out /\ dev = given d0 ps2).
        { unfold dev, out. destruct (rem <? cnt); [|eauto]. destruct (sim_grow d0 ps1 _ (firstn (Z.to_nat (cnt - rem)) rest) C1) as (ps2 & C2 & G2). eauto. }
        destruct (0 <? rem).
        * destruct (store_span d 0 _) as [d2| | | |]; cbn [bind] in *; try discriminate. injection H as <- <-. eexists. split; [reflexivity|]. unfold sim. cbn. auto.
        * injection H as <- <-. eexists. split; [reflexivity|]. unfold sim. cbn. auto.
    - injection H as <- <-. eexists. split; [reflexivity|]. apply sim_overflow. exact S.
  Qed.

  Lemma sim_run d0 os : forall b s b' ns, sim d0 b s -> b_run b os = Ok (b', ns) -> exists s', sw_run dwrite s os = Ok (s', ns) /\ sim d0 b' s'.
  Proof.
    induction os as [|o os IH]; intros b s b' ns S H; cbn [b_run sw_run] in *.
    - injection H as <- <-. eauto.
    - destruct (b_step b o) as [[b1 n]| | | |] eqn:E; cbn [bind] in H; try discriminate.
      destruct (b_run b1 os) as [[b2 ns2]| | | |] eqn:R; cbn [bind] in H; try discriminate. injection H as <- <-.
      destruct (sim_step _ _ _ _ _ _ S E) as (s1 & E1 & S1). destruct (IH _ _ _ _ S1 R) as (s2 & R2 & S2).
      exists s2. rewrite E1. cbn [bind]. rewrite R2. auto.
  Qed.
End Writer.

(** A device with limited room. *)
Lemma cap_given cap ps : forall d, (length d <= cap)%nat -> given (cap_write cap) d ps = firstn cap (d ++ concat ps).
Proof.
  induction ps as [|p ps IH]; intros d H; cbn [given fold_left concat].
  - rewrite app_nil_r, firstn_all2 by lia. reflexivity.
  - change (fold_left (fun d p => fst (cap_write cap d p)) ps (fst (cap_write cap d p))) with (given (cap_write cap) (d ++ firstn (cap - length d) p) ps).
    rewrite IH by (rewrite app_length, firstn_length; lia). rewrite app_assoc, !firstn_app, !app_length, !firstn_length.
    rewrite (firstn_all2 d) by lia. f_equal.
    + f_equal. rewrite firstn_firstn. f_equal. lia.
    + destruct (Nat.le_gt_cases (length p) (cap - length d)) as [L|L].
      * f_equal. lia.
      * replace (cap - (length d + Nat.min (cap - length d) (length p)))%nat with O by lia. replace (cap - (length d + length p))%nat with O by lia. reflexivity.
Qed.

(** A part of a sequence, in order. *)
Inductive part {A} : list A -> list A -> Prop :=
| part_nil : forall l, part [] l
| part_keep : forall x s l, part s l -> part (x :: s) (x :: l)
| part_drop : forall x s l, part s l -> part s (x :: l).
Lemma part_firstn {A} (l : list A) : forall k, part (firstn k l) l.
Proof. induction l as [|x l IH]; intros [|k]; cbn; constructor; apply IH. Qed.
Lemma part_refl {A} (l : list A) : part l l.
Proof. induction l; constructor; assumption. Qed.
Lemma part_app {A} (s l : list A) : part s l -> forall t m, part t m -> part (s ++ t) (l ++ m).
Proof.
  induction 1 as [l|x s l H IH|x s l H IH]; intros t m T; cbn.
  - induction l; cbn; [exact T|constructor; assumption].
  - constructor. apply IH. exact T.
  - constructor. apply IH. exact T.
Qed.
Lemma part_given ps : forall d ks, exists s, fst (given part_write (d, ks) ps) = d ++ s /\ part s (concat ps).
Proof.
  induction ps as [|p ps IH]; intros d ks; cbn [given fold_left concat].
  - exists []. rewrite app_nil_r. split; [reflexivity|constructor].
  - change (fold_left (fun d p => fst (part_write d p)) ps (fst (part_write (d, ks) p))) with (given part_write (fst (part_write (d, ks) p)) ps).
    unfold part_write at 2. cbn [fst snd]. destruct ks as [|k ks]; cbn [fst].
    + destruct (IH (d ++ p) []) as (s & E & P). exists (p ++ s). rewrite app_assoc. split; [exact E|]. apply part_app; [apply part_refl|exact P].
    + destruct (IH (d ++ firstn k p) ks) as (s & E & P). exists (firstn k p ++ s). rewrite app_assoc. split; [exact E|]. apply part_app; [apply part_firstn|exact P].
Qed.

(** * Reading *)
Definition full_pieces (ps : list (list Z)) : Prop := Forall (fun p => p <> []) ps.

Lemma piece_read_spec ps n x r : (0 < n)%nat -> full_pieces ps -> piece_read ps n = (x, r) ->
  concat ps = x ++ concat r /\ (length x <= n)%nat /\ full_pieces r /\ (x = [] -> ps = []).
Proof.
  intros N F H. unfold piece_read in H. destruct ps as [|p ps]; [injection H as <- <-; cbn; repeat split; auto; lia|].
  inversion F; subst. destruct (Nat.leb_spec (length p) n) as [L|L]; injection H as <- <-; cbn [concat].
  - repeat split; auto. intros ->. congruence.
  - rewrite app_assoc, firstn_skipn. repeat split; auto.
    + rewrite firstn_length. lia.
    + constructor; [|assumption]. intros E. apply (f_equal (@length Z)) in E. rewrite skipn_length in E. cbn in E. lia.
    + intros E. apply (f_equal (@length Z)) in E. rewrite firstn_length in E. cbn in E. lia.
Qed.

(* [stream] is to come; [primed]: an empty buffer means the end. *)
Definition reader_at (n : nat) (b : sreader) (primed : bool) (stream : list Z) : Prop :=
  length (sr_buf b) = n /\ full_pieces (sr_src b) /\
  exists a i t, sr_buf b = a ++ i ++ t /\ sr_ptr b = lenZ a /\ sr_end b = lenZ a + lenZ i /\
    stream = i ++ concat (sr_src b) /\ (primed = true -> i = [] -> sr_src b = []).

Lemma store_front (l xs : list Z) : (length xs <= length l)%nat -> store l 0 xs = xs ++ skipn (length xs) l.
Proof. intros H. exact (store_app [] l xs 0 eq_refl H). Qed.

Lemma store_span_front (l xs : list Z) : (length xs <= length l)%nat -> store_span l 0 xs = Ok (xs ++ skipn (length xs) l).
Proof. intros H. exact (store_span_app [] l xs 0 eq_refl H). Qed.
Lemma load_span_front (l : list Z) n : 0 <= n <= lenZ l -> load_span l 0 n = Ok (firstn (Z.to_nat n) l).
Proof. intros H. exact (load_span_app [] l 0 n eq_refl H). Qed.

Lemma underflow_at n b : (0 < n)%nat -> length (sr_buf b) = n -> full_pieces (sr_src b) -> reader_at n (sr_underflow b) true (concat (sr_src b)) /\
  exists x, sr_ptr (sr_underflow b) = 0 /\ sr_end (sr_underflow b) = lenZ x /\ sr_buf (sr_underflow b) = x ++ skipn (length x) (sr_buf b) /\ (length x <= n)%nat /\
    concat (sr_src b) = x ++ concat (sr_src (sr_underflow b)) /\ (x = [] -> sr_src b = []).
Proof.
  intros N L F. unfold sr_underflow. destruct (piece_read (sr_src b) (length (sr_buf b))) as [x r] eqn:E.
  rewrite L in E. destruct (piece_read_spec _ _ _ _ N F E) as (C & Lx & Fr & Nx).
  assert (S : store (sr_buf b) 0 x = x ++ skipn (length x) (sr_buf b)) by (apply store_front; lia).
  split.
  - unfold reader_at. cbn [sr_buf sr_src sr_ptr sr_end]. rewrite S. split; [rewrite app_length, skipn_length; lia|]. split; [exact Fr|].
    exists [], x, (skipn (length x) (sr_buf b)). cbn. repeat split; auto. intros _ ->. specialize (Nx eq_refl). rewrite Nx in E. cbn in E. injection E as <-. reflexivity.
  - exists x. cbn [sr_buf sr_src sr_ptr sr_end]. auto 10.
Qed.

Lemma move_at n b a u w t : (0 < n)%nat -> length (sr_buf b) = n -> full_pieces (sr_src b) -> sr_buf b = a ++ (u ++ w) ++ t -> sr_ptr b = lenZ a -> sr_end b = lenZ a + lenZ (u ++ w) ->
  exists b', sr_move b (lenZ u) = Ok b' /\ reader_at n b' true (w ++ concat (sr_src b)).
Proof.
  intros N L F B P E. unfold sr_move. cbn [sr_buf sr_ptr sr_end sr_src]. rewrite P, E, lenZ_app.
  pose proof (lenZ_nonneg a). pose proof (lenZ_nonneg u). pose proof (lenZ_nonneg w).
  destruct (Z.leb_spec 0 (lenZ a + lenZ u)); [|lia]. cbn [assert_then]. eexists. split; [reflexivity|].
  destruct (Z.eqb_spec (lenZ a + lenZ u) (lenZ a + (lenZ u + lenZ w))) as [Q|Q].
  - assert (W : w = []) by (destruct w as [|z w]; [reflexivity|rewrite lenZ_cons in Q; pose proof (lenZ_nonneg w); lia]). subst w.
    match goal with |- reader_at n (sr_underflow ?x) _ _ => destruct (underflow_at n x N L F) as [R _]; exact R end.
  - unfold reader_at. cbn [sr_buf sr_ptr sr_end sr_src]. split; [exact L|]. split; [exact F|]. exists (a ++ u), w, t.
    rewrite !lenZ_app. split; [rewrite B, <- !app_assoc; reflexivity|]. split; [reflexivity|]. split; [lia|]. split; [reflexivity|].
    intros _ ->. exfalso. apply Q. rewrite lenZ_nil. lia.
Qed.

Lemma firstn_app_exact (x y : list Z) : firstn (Z.to_nat (lenZ x)) (x ++ y) = x.
Proof. rewrite to_nat_lenZ. apply firstn_eq_app. reflexivity. Qed.

Lemma read_at n b pr stream old : (0 < n)%nat -> Z.of_nat n < 2 ^ 64 -> (length old <= n)%nat -> reader_at n b pr stream ->
  exists b' dst x s', sr_read b old = Ok (b', dst, lenZ x) /\ firstn (Z.to_nat (lenZ x)) dst = x /\ stream = x ++ s' /\ reader_at n b' true s' /\
    (length x <= length old)%nat /\ (old <> [] -> stream <> [] -> x <> []).
Proof.
  intros N N64 LO (L & F & a & i & t & B & P & E & S & PR).
  assert (LB : (length a + length i + length t = n)%nat) by (rewrite B, !app_length in L; lia).
  assert (AV : size_t (sr_end b - sr_ptr b) = lenZ i).
  { rewrite E, P. replace (lenZ a + lenZ i - lenZ a) with (lenZ i) by lia. apply size_t_small. unfold lenZ. lia. }
  unfold sr_read. rewrite AV. destruct (Z.ltb_spec (lenZ old) (lenZ i)) as [C|C].
  - (* in the buffer *)
    assert (LI : (length old < length i)%nat) by (unfold lenZ in C; lia).
    rewrite B, (load_span_app a (i ++ t)) by (try exact P; rewrite lenZ_app; pose proof (lenZ_nonneg t); pose proof (lenZ_nonneg old); lia). cbn [bind].
    rewrite to_nat_lenZ, firstn_app. replace (length old - length i)%nat with O by lia. cbn [firstn]. rewrite app_nil_r.
    set (x := firstn (length old) i). assert (LX : length x = length old) by (unfold x; rewrite firstn_length; lia).
    rewrite (store_span_front old x) by lia. cbn [bind app]. rewrite LX, skipn_all, app_nil_r.
    exists {| sr_buf := a ++ i ++ t; sr_ptr := sr_ptr b + lenZ old; sr_end := sr_end b; sr_src := sr_src b |}, x, x, (skipn (length old) i ++ concat (sr_src b)).
    assert (LZ : lenZ x = lenZ old) by (unfold lenZ; lia). rewrite LZ. split; [reflexivity|]. split; [rewrite to_nat_lenZ, <- LX; apply firstn_all|].
    split; [rewrite S, app_assoc; unfold x; rewrite firstn_skipn; reflexivity|]. split.
    + unfold reader_at. cbn [sr_buf sr_ptr sr_end sr_src]. split; [rewrite <- B; exact L|]. split; [exact F|].
      exists (a ++ x), (skipn (length old) i), t. rewrite lenZ_app, lenZ_skipn. split; [|split; [|split; [|split]]].
      * rewrite <- app_assoc. f_equal. rewrite app_assoc. f_equal. unfold x. symmetry. apply firstn_skipn.
      * lia.
      * rewrite E. unfold lenZ in *. lia.
      * reflexivity.
      * intros _ Q. apply (f_equal (@length Z)) in Q. rewrite skipn_length in Q. cbn in Q. lia.
    + split; [lia|]. intros O _ Q. rewrite Q in LX. destruct old; [congruence|discriminate].
  - assert (LI : (length i <= length old)%nat) by (unfold lenZ in C; lia).
    rewrite B, (load_span_app a (i ++ t)) by (try exact P; rewrite lenZ_app; pose proof (lenZ_nonneg t); pose proof (lenZ_nonneg i); lia). cbn [bind].
    rewrite to_nat_lenZ, (firstn_eq_app (length i) i t eq_refl). rewrite <- B.
    rewrite (store_span_front old i) by lia. cbn [bind app].
    assert (LBZ : lenZ (sr_buf b) = Z.of_nat n) by (unfold lenZ; rewrite L; reflexivity). rewrite LBZ.
    destruct (Z.ltb_spec (lenZ old - lenZ i) (Z.of_nat n)) as [K|K].
    + (* nothing directly *)
      rewrite Z.mod_small by lia. rewrite Z.ltb_irrefl. cbn [bind].
      change (store_span (i ++ skipn (length i) old) (lenZ i) []) with (Ok (i ++ skipn (length i) old)). cbn [bind].
      set (b0 := {| sr_buf := sr_buf b; sr_ptr := sr_ptr b; sr_end := sr_end b; sr_src := sr_src b |}).
      destruct (underflow_at n b0 N L F) as (R1 & x & P1 & E1 & B1 & L1 & C1 & N1). cbn [sr_src b0] in R1, C1, N1.
      rewrite P1, E1, Z.sub_0_r. change (lenZ (@nil Z)) with 0. rewrite Z.add_0_r. set (m := Z.min (lenZ old - lenZ i) (lenZ x)).
      destruct (Z.ltb_spec 0 m) as [M|M].
      * rewrite B1, (load_span_front _ m) by (rewrite lenZ_app; pose proof (lenZ_nonneg (skipn (length x) (sr_buf b0))); lia). cbn [bind].
        rewrite firstn_app. replace (Z.to_nat m - length x)%nat with O by (unfold m, lenZ; lia). cbn [firstn]. rewrite app_nil_r.
        set (z := firstn (Z.to_nat m) x). assert (LZ : lenZ z = m) by (unfold z; rewrite lenZ_firstn; unfold m, lenZ; lia).
        assert (LZn : (length z <= length old - length i)%nat) by (unfold lenZ in *; lia).
        rewrite (store_span_app i (skipn (length i) old) z (lenZ i) eq_refl) by (rewrite skipn_length; exact LZn). cbn [bind].
        assert (XZ : x = z ++ skipn (Z.to_nat m) x) by (unfold z; symmetry; apply firstn_skipn).
        pose proof (underflow_at n b0 N L F) as ((L2 & F2 & _) & _).
        destruct (move_at n (sr_underflow b0) [] z (skipn (Z.to_nat m) x) (skipn (length x) (sr_buf b0)) N L2 F2) as (b2 & MV & R2).
        { cbn [app]. rewrite <- XZ. exact B1. }
        { exact P1. } { rewrite <- XZ. exact E1. }
        rewrite LZ in MV. rewrite MV. cbn [bind]. exists b2, (i ++ z ++ skipn (length z) (skipn (length i) old)), (i ++ z), (skipn (Z.to_nat m) x ++ concat (sr_src (sr_underflow b0))).
        rewrite lenZ_app, LZ. split; [reflexivity|]. split.
        { rewrite app_assoc. replace (lenZ i + m) with (lenZ (i ++ z)) by (rewrite lenZ_app; lia). apply firstn_app_exact. }
        split; [rewrite S, C1, <- !app_assoc; f_equal; rewrite !app_assoc; f_equal; exact XZ|]. split; [exact R2|].
        split; [rewrite app_length; lia|]. intros _ _ Q. apply app_eq_nil in Q. destruct Q as [_ Q]. rewrite Q, lenZ_nil in LZ. lia.
      * exists (sr_underflow b0), (i ++ skipn (length i) old), i, (concat (sr_src b)). split; [reflexivity|]. split; [apply firstn_app_exact|].
        split; [exact S|]. split; [exact R1|]. split; [lia|]. intros O SN Q. subst i.
        assert (X0 : x = []).
        { destruct x as [|z x]; [reflexivity|]. exfalso. unfold m in M. rewrite lenZ_nil, lenZ_cons in M. pose proof (lenZ_nonneg x). destruct old; [congruence|]. rewrite lenZ_cons in M. pose proof (lenZ_nonneg old). lia. }
        apply SN. rewrite S. rewrite (N1 X0). reflexivity.
    + (* one whole buffer directly *)
      assert (I0 : i = []) by (destruct i as [|z i]; [reflexivity|]; rewrite lenZ_cons in K; pose proof (lenZ_nonneg i); unfold lenZ in *; lia). subst i.
      assert (LON : length old = n) by (rewrite lenZ_nil in K; unfold lenZ in K; lia).
      rewrite lenZ_nil, Z.sub_0_r. assert (LOZ : lenZ old = Z.of_nat n) by (unfold lenZ; lia). rewrite LOZ, Z_mod_same_full.
      destruct (Z.ltb_spec 0 (Z.of_nat n)); [|lia]. rewrite Z.sub_0_r, Nat2Z.id.
      destruct (piece_read (sr_src b) n) as [y r] eqn:EY. destruct (piece_read_spec _ _ _ _ N F EY) as (CY & LY & FY & NY).
      cbn [length skipn app]. rewrite (store_span_front old y) by lia. cbn [bind app].
      set (b0 := {| sr_buf := sr_buf b; sr_ptr := sr_ptr b; sr_end := sr_end b; sr_src := r |}).
      destruct (underflow_at n b0 N L FY) as (R1 & x & P1 & E1 & _). cbn [sr_src b0] in R1.
      rewrite P1, E1, Z.sub_0_r. pose proof (lenZ_nonneg x). rewrite Z.min_l by lia. cbn [Z.ltb Z.compare].
      exists (sr_underflow b0), (y ++ skipn (length y) old), y, (concat r). split; [reflexivity|]. split; [apply firstn_app_exact|].
      split; [rewrite S; exact CY|]. split; [exact R1|]. split; [lia|]. intros _ SN Q. apply SN. rewrite S. rewrite (NY Q). reflexivity.
Qed.

Lemma input_at n b pr stream : reader_at n b pr stream -> exists rest, stream = sr_input b ++ rest /\ (pr = true -> sr_input b = [] -> stream = []).
Proof.
  intros (L & F & a & i & t & B & P & E & S & PR). assert (I : sr_input b = i).
  { unfold sr_input. rewrite B, E, P. rewrite (slice_app a (i ++ t)) by reflexivity. replace (lenZ a + lenZ i - lenZ a) with (lenZ i) by lia. apply firstn_app_exact. }
  rewrite I. exists (concat (sr_src b)). split; [exact S|]. intros Hp ->. rewrite S, (PR Hp eq_refl). reflexivity.
Qed.

Lemma get_at n b pr stream c rest : (0 < n)%nat -> reader_at n b pr stream -> sr_input b = c :: rest ->
  exists b' s', sr_get b = Ok (b', c) /\ stream = c :: s' /\ reader_at n b' true s'.
Proof.
  intros N (L & F & a & i & t & B & P & E & S & PR) I0. assert (I : sr_input b = i).
  { unfold sr_input. rewrite B, E, P. rewrite (slice_app a (i ++ t)) by reflexivity. replace (lenZ a + lenZ i - lenZ a) with (lenZ i) by lia. apply firstn_app_exact. }
  rewrite I in I0. subst i. unfold sr_get. rewrite E, P, lenZ_cons. pose proof (lenZ_nonneg rest). destruct (Z.ltb_spec (lenZ a) (lenZ a + (1 + lenZ rest))); [|lia].
  replace (at_char (sr_buf b) (lenZ a)) with c by (rewrite B; symmetry; apply (at_char_app a (rest ++ t))).
  destruct (move_at n b a [c] rest t N L F) as (b' & M & R); [exact B|exact P|exact E|]. change 1 with (lenZ [c]). rewrite M. cbn [bind].
  exists b', (rest ++ concat (sr_src b)). auto.
Qed.

(** ** Specification of a history of reads *)
(* Each operation gives at most what it was asked for, and something if there is something; nothing is lost. *)
Definition asked (o : srop) : nat := match o with SGet => 1 | SRead old => length old end.
Fixpoint delivers (stream : list Z) (os : list srop) (outs : list (list Z)) (rest : list Z) : Prop :=
  match os, outs with
  | [], [] => rest = stream
  | o :: os, x :: outs => (length x <= asked o)%nat /\ ((0 < asked o)%nat -> stream <> [] -> x <> []) /\
      exists s, stream = x ++ s /\ delivers s os outs rest
  | _, _ => False
  end.

Lemma run_at n os : (0 < n)%nat -> Z.of_nat n < 2 ^ 64 -> Forall (fun o => (asked o <= n)%nat) os -> forall b stream, reader_at n b true stream ->
  exists b' outs rest, sr_run b os = Ok (b', outs) /\ delivers stream os outs rest /\ reader_at n b' true rest.
Proof.
  intros N N64. induction os as [|o os IH]; intros FA b stream R.
  - exists b, [], stream. cbn. auto.
  - inversion FA; subst. cbn [sr_run]. destruct o as [|old]; cbn [sr_step asked] in *.
    + destruct (sr_input b) as [|c r] eqn:I.
      * cbn [bind]. destruct (IH H2 b stream R) as (b' & outs & rest & E & Dl & R'). rewrite E. cbn [bind]. exists b', ([] :: outs), rest.
        split; [reflexivity|]. split; [|exact R']. cbn [delivers]. split; [cbn; lia|]. split; [|exists stream; auto].
        intros _ SN. destruct (input_at _ _ _ _ R) as (_ & _ & X). exfalso. apply SN. apply X; auto.
      * destruct (get_at _ _ _ _ _ _ N R I) as (b1 & s' & E & -> & R1). rewrite E. cbn [bind].
        destruct (IH H2 b1 s' R1) as (b' & outs & rest & E2 & Dl & R'). rewrite E2. cbn [bind]. exists b', ([c] :: outs), rest.
        split; [reflexivity|]. split; [|exact R']. cbn [delivers]. split; [cbn; lia|]. split; [discriminate|]. exists s'. auto.
    + destruct (read_at n b true stream old N N64 H1 R) as (b1 & dst & x & s' & E & FX & S & R1 & LX & NX). rewrite E. cbn [bind]. rewrite FX.
      destruct (IH H2 b1 s' R1) as (b' & outs & rest & E2 & Dl & R'). rewrite E2. cbn [bind]. exists b', (x :: outs), rest.
      split; [reflexivity|]. split; [|exact R']. cbn [delivers asked]. split; [exact LX|]. split; [|exists s'; auto].
      intros H0. apply NX. intros ->. cbn in H0. lia.
Qed.

(** * A source that gives all it was asked for until its end *)
Definition one (l : list Z) : list (list Z) := match l with [] => [] | _ => [l] end.
Lemma piece_read_one l k : piece_read (one l) k = (firstn k l, one (skipn k l)).
Proof.
  destruct l as [|x l]; cbn [one piece_read]; [now rewrite firstn_nil, skipn_nil|]. destruct (Nat.leb_spec (length (x :: l)) k) as [H|H].
  - rewrite firstn_all2, skipn_all2 by exact H. reflexivity.
  - destruct (skipn k (x :: l)) eqn:E; [|reflexivity]. apply (f_equal (@length Z)) in E. rewrite skipn_length in E. change (length (@nil Z)) with O in E. lia.
Qed.

Definition same_reader (b : breader) (s : sreader) : Prop :=
  sr_buf s = r_buf b /\ sr_ptr s = r_ptr b /\ sr_end s = r_end b /\ sr_src s = one (r_src b).

Lemma same_underflow b s : same_reader b s -> same_reader (r_underflow b) (sr_underflow s).
Proof.
  intros (E1 & E2 & E3 & E4). unfold r_underflow, sr_underflow, dev_read, r_size. rewrite E1, E4, piece_read_one, to_nat_lenZ. repeat split.
Qed.
Lemma same_move b s o b' : same_reader b s -> r_move b o = Ok b' -> exists s', sr_move s o = Ok s' /\ same_reader b' s'.
Proof.
  intros (E1 & E2 & E3 & E4) H. unfold r_move in H. unfold sr_move. cbn [r_buf r_ptr r_end r_src sr_buf sr_ptr sr_end sr_src] in *. rewrite E1, E2, E3, E4.
  destruct (0 <=? r_ptr b + o); cbn [assert_then] in *; [|discriminate]. injection H as <-. eexists. split; [reflexivity|].
  destruct (r_ptr b + o =? r_end b); [apply same_underflow|]; repeat split.
Qed.
Lemma load_span_length l p n xs : 0 <= n -> load_span l p n = Ok xs -> lenZ xs = n.
Proof.
  intros N H. unfold load_span in H. destruct (Z.eqb_spec n 0) as [->|E]; [injection H as <-; reflexivity|].
  destruct ((0 <=? p) && (p + n <=? lenZ l)) eqn:C; [|discriminate]. injection H as <-. apply andb_true_iff in C. rewrite !Z.leb_le in C.
  unfold slice. rewrite lenZ_firstn, lenZ_skipn. lia.
Qed.

Lemma same_read b s old b' out : same_reader b s -> 0 < lenZ (r_buf b) -> r_read b (lenZ old) = Ok (b', out) ->
  exists s' dst, sr_read s old = Ok (s', dst, lenZ out) /\ firstn (Z.to_nat (lenZ out)) dst = out /\ same_reader b' s'.
Proof.
  intros S NB H. pose proof S as (E1 & E2 & E3 & E4). unfold r_read in H. unfold sr_read. rewrite E1, E2, E3, E4.
  set (av := size_t (r_end b - r_ptr b)) in *. assert (A0 : 0 <= av) by (apply Z.mod_pos_bound; lia). pose proof (lenZ_nonneg old) as O0.
  destruct (Z.ltb_spec (lenZ old) av) as [C|C].
  - destruct (load_span (r_buf b) (r_ptr b) (lenZ old)) as [xs| | | |] eqn:LX; cbn [bind] in *; try discriminate. injection H as <- <-.
    apply load_span_length in LX; [|exact O0]. assert (LN : length xs = length old) by (unfold lenZ in LX; lia).
    rewrite store_span_front by lia. cbn [bind]. rewrite LN, skipn_all, app_nil_r. rewrite <- LX. eexists _, xs. split; [reflexivity|].
    split; [rewrite to_nat_lenZ; apply firstn_all|]. rewrite LX. repeat split.
  - destruct (load_span (r_buf b) (r_ptr b) av) as [xs| | | |] eqn:LX; cbn [bind] in *; try discriminate.
    apply load_span_length in LX; [|exact A0]. assert (LN : (length xs <= length old)%nat) by (unfold lenZ in *; lia).
    rewrite store_span_front by lia. cbn [bind]. unfold r_size in H. set (cnt := lenZ old - av) in *. set (rem := cnt mod lenZ (r_buf b)) in *.
    assert (RB : 0 <= rem < lenZ (r_buf b)) by (apply Z.mod_pos_bound; exact NB). assert (RC : rem <= cnt) by (apply Z.mod_le; unfold cnt; lia).
    set (big := rem <? cnt) in *.
    set (k := Z.to_nat (cnt - rem)) in *.
    assert (P : (if big then piece_read (one (r_src b)) k else ([], one (r_src b))) = (if big then firstn k (r_src b) else [], one (if big then skipn k (r_src b) else r_src b))).
    { destruct big; [apply piece_read_one|reflexivity]. }
    assert (P' : (if big then dev_read (r_src b) (cnt - rem) else ([], r_src b)) = (if big then firstn k (r_src b) else [], if big then skipn k (r_src b) else r_src b)).
    { destruct big; reflexivity. }
    rewrite P. rewrite P' in H. set (ys := if big then firstn k (r_src b) else []) in *. set (src := if big then skipn k (r_src b) else r_src b) in *.
    assert (LY : (length ys <= length old - length xs)%nat).
    { unfold ys. destruct big; [|cbn; lia]. rewrite firstn_length. unfold k, lenZ in *. lia. }
    rewrite (store_span_app xs (skipn (length xs) old) ys av (eq_sym LX)) by (rewrite skipn_length; exact LY). cbn [bind].
    set (b0 := {| r_buf := r_buf b; r_ptr := r_ptr b; r_end := r_end b; r_src := src |}) in *.
    set (s0 := {| sr_buf := r_buf b; sr_ptr := r_ptr b; sr_end := r_end b; sr_src := one src |}) in *.
    assert (S0 : same_reader b0 s0) by (repeat split). pose proof (same_underflow _ _ S0) as S1. pose proof S1 as (F1 & F2 & F3 & F4).
    rewrite F1, F2, F3. set (m := Z.min rem (r_end (r_underflow b0) - r_ptr (r_underflow b0))) in *.
    destruct (Z.ltb_spec 0 m) as [M|M].
    + destruct (load_span (r_buf (r_underflow b0)) (r_ptr (r_underflow b0)) m) as [zs| | | |] eqn:LZ; cbn [bind] in *; try discriminate.
      apply load_span_length in LZ; [|lia].
      assert (YF : av + (if big then cnt - rem else 0) = lenZ (xs ++ ys)).
      { rewrite lenZ_app, LX. f_equal. unfold ys. destruct big; [|reflexivity].
        (* something was left, so the device gave all *)
        assert (SN : src <> []).
        { intros Q. unfold m, r_underflow, b0 in M. cbn [dev_read r_src r_size r_buf r_end r_ptr] in M. rewrite Q in M. rewrite firstn_nil in M. cbn in M. lia. }
        unfold src in SN. rewrite lenZ_firstn. assert (k < length (r_src b))%nat.
        { destruct (Nat.le_gt_cases (length (r_src b)) k) as [G|G]; [|exact G]. exfalso. apply SN. apply skipn_all2. exact G. }
        unfold k in *. unfold lenZ. lia. }
      replace (if big then av + (cnt - rem) else av) with (lenZ (xs ++ ys)) by (rewrite <- YF; destruct big; lia).
      rewrite app_assoc. rewrite (store_span_app (xs ++ ys) _ zs _ eq_refl).
      2:{ rewrite !skipn_length. assert (lenZ (xs ++ ys) + lenZ zs <= lenZ old). { rewrite <- YF, LZ. unfold m, cnt in *. destruct big eqn:BG; [lia|]. unfold big in BG. apply Z.ltb_ge in BG. lia. }
          rewrite lenZ_app in *. unfold lenZ in *. lia. }
      cbn [bind]. destruct (r_move (r_underflow b0) m) as [b2| | | |] eqn:MV; cbn [bind] in H; try discriminate. injection H as <- <-.
      destruct (same_move _ _ _ _ S1 MV) as (s2 & MV2 & S2). rewrite MV2. cbn [bind]. eexists s2, _. split; [|split; [|exact S2]].
      * f_equal. f_equal. rewrite !lenZ_app, LX, LZ. lia.
      * rewrite !app_assoc. rewrite <- (app_assoc (xs ++ ys)). rewrite (app_assoc (xs ++ ys) zs). apply firstn_app_exact.
    + injection H as <- <-. eexists _, _. split; [|split; [|exact S1]].
      * f_equal. f_equal. rewrite lenZ_app, LX. reflexivity.
      * rewrite app_assoc. apply firstn_app_exact.
Qed.

Lemma same_run olds : forall b s b' outs, same_reader b s -> 0 < lenZ (r_buf b) ->
  (forall b1 z b2 o, 0 < lenZ (r_buf b1) -> r_read b1 z = Ok (b2, o) -> 0 < lenZ (r_buf b2)) ->
  r_run b (map (fun old => RRead (length old)) olds) = Ok (b', outs) -> exists s', sr_run s (map SRead olds) = Ok (s', outs).
Proof.
  induction olds as [|old olds IH]; intros b s b' outs S N K H; cbn [map r_run sr_run r_step sr_step] in *.
  - injection H as <- <-. eauto.
  - fold (lenZ old) in H. change (Z.of_nat (length old)) with (lenZ old) in H.
    destruct (r_read b (lenZ old)) as [[b1 x]| | | |] eqn:E; cbn [bind] in H; try discriminate.
    destruct (r_run b1 _) as [[b2 xs]| | | |] eqn:R; cbn [bind] in H; try discriminate. injection H as <- <-.
    destruct (same_read _ _ _ _ _ S N E) as (s1 & dst & E1 & F1 & S1). destruct (IH b1 s1 b2 xs S1 (K _ _ _ _ N E) K R) as (s2 & R2).
    rewrite E1. cbn [bind]. rewrite F1, R2. cbn [bind]. eauto.
Qed.

Lemma r_underflow_buf b : 0 < lenZ (r_buf b) -> 0 < lenZ (r_buf (r_underflow b)).
Proof.
  intros H. unfold r_underflow, dev_read. cbn [r_buf]. unfold store. rewrite !lenZ_app, lenZ_skipn, lenZ_firstn. unfold r_size in *.
  pose proof (lenZ_nonneg (firstn (Z.to_nat (lenZ (r_buf b))) (r_src b))) as X. unfold lenZ in *. lia.
Qed.
Lemma r_move_buf b o b' : 0 < lenZ (r_buf b) -> r_move b o = Ok b' -> 0 < lenZ (r_buf b').
Proof.
  intros H M. unfold r_move in M. destruct (0 <=? _); cbn [assert_then] in M; [|discriminate]. injection M as <-.
  destruct (_ =? _); [apply r_underflow_buf|]; exact H.
Qed.
Lemma r_read_buf b z b' o : 0 < lenZ (r_buf b) -> r_read b z = Ok (b', o) -> 0 < lenZ (r_buf b').
Proof.
  intros N H. unfold r_read in H. destruct (z <? _).
  - destruct (load_span _ _ _); cbn [bind] in H; try discriminate. injection H as <- <-. exact N.
  - destruct (load_span _ _ _); cbn [bind] in H; try discriminate.
    destruct (if _ <? _ then dev_read _ _ else _) as [ys src]. set (b0 := {| r_buf := r_buf b; r_ptr := r_ptr b; r_end := r_end b; r_src := src |}) in *.
    assert (N1 : 0 < lenZ (r_buf (r_underflow b0))) by (apply r_underflow_buf; exact N).
    destruct (0 <? _).
    + destruct (load_span (r_buf (r_underflow b0)) _ _); cbn [bind] in H; try discriminate.
      destruct (r_move (r_underflow b0) _) as [b2| | | |] eqn:M; cbn [bind] in H; try discriminate. injection H as <- <-. eapply r_move_buf; eassumption.
    + injection H as <- <-. exact N1.
Qed.
