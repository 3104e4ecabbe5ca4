(** Reading from text through a buffer gives what reading from memory gives. *)
From Coq Require Import ZArith List Bool Lia.
From Verif Require Import Outcome StringModel IntTextModel IntTextProofs FormatModel FloatTextModel FloatTextProofs DeviceModel DeviceProofs BufferProofs
  ShortModel ShortProofs ReadModel ReadProofs BufReadModel.
Import ListNotations.
Local Open Scope Z_scope.

(** ** Parsers consume no more than they are given *)
Lemma uint_loop_le w small s : forall p n q, uint_loop w small p s = (n, q) -> (n <= length s)%nat.
Proof.
  induction s as [|c s IH]; intros p n q H; cbn [uint_loop] in H.
  - injection H as <- <-. lia.
  - destruct (negb _); [injection H as <- <-; lia|].
    match type of H with (let (_, _) := uint_loop w small ?x s in _) = _ => destruct (uint_loop w small x s) as [k r] eqn:E end.
    injection H as <- <-. apply IH in E. cbn [length]. lia.
Qed.
Lemma uint_parse_le w p s n q : uint_parse w p s = Ok (n, q) -> (n <= length s)%nat.
Proof.
  unfold uint_parse. destruct (u_st p).
  - destruct s as [|c s]; [discriminate|]. destruct (_ <? _).
    + match goal with |- context [uint_loop w ?a ?x s] => destruct (uint_loop w a x s) as [k r] eqn:E end.
      intros H. injection H as <- <-. apply uint_loop_le in E. cbn. lia.
    + intros H. injection H as <- <-. lia.
  - intros H. injection H as H. eapply uint_loop_le, H.
  - intros H. injection H as H. eapply uint_loop_le, H.
Qed.
Lemma base_zero_le i b s n q : base_zero i b s = (n, q) -> (n <= i + length s)%nat.
Proof.
  unfold base_zero. destruct s as [|c s].
  - intros H. injection H as <- <-. lia.
  - destruct (parse_base b c) as [[|] b']; intros H; injection H as <- <-; cbn; lia.
Qed.
Lemma base_parse_le p s n q : base_parse p s = Ok (n, q) -> (n <= length s)%nat.
Proof.
  unfold base_parse. destruct (b_st p).
  - destruct s as [|c s]; [discriminate|]. destruct (c =? 48); intros H; injection H as H.
    + apply base_zero_le in H. cbn. lia.
    + subst n. cbn. lia.
  - intros H. injection H as H. apply base_zero_le in H. lia.
  - intros H. injection H as <- <-. lia.
Qed.
Lemma parse_value_le w p i s n q : parse_value w p i s = Ok (n, q) -> (n <= i + length s)%nat.
Proof.
  unfold parse_value. intros H. destruct (uint_parse w (i_inner p) s) as [[k u]| | | |] eqn:E; try discriminate.
  cbn in H. injection H as <- <-. apply uint_parse_le in E. lia.
Qed.
Lemma parse_sign_le w sg p i s n q : parse_sign w sg p i s = Ok (n, q) -> (n <= i + length s)%nat.
Proof.
  unfold parse_sign. intros H. destruct (base_parse (i_base p) s) as [[k u]| | | |] eqn:E; try discriminate. cbn [bind] in H.
  apply base_parse_le in E. assert (L : length (skipn k s) = (length s - k)%nat) by apply skipn_length.
  destruct (skipn k s) as [|c r] eqn:K; [injection H as <- <-; lia|].
  destruct (b_st u); [injection H as <- <-; lia| |]; apply parse_value_le in H; lia.
Qed.
Lemma int_parse_le w sg p s n q : int_parse w sg p s = Ok (n, q) -> (n <= length s)%nat.
Proof.
  unfold int_parse. destruct (i_st p).
  - destruct s as [|c s]; [discriminate|]. destruct (sign_parse sg (i_neg p) c) as [k neg] eqn:Sg.
    assert (K : (k <= 1)%nat).
    { unfold sign_parse in Sg. destruct (_ && _); [injection Sg; lia|]. destruct (c =? 43); injection Sg; lia. }
    assert (L : length (skipn k (c :: s)) = (length (c :: s) - k)%nat) by apply skipn_length.
    destruct (skipn k (c :: s)) as [|d r]; intros H.
    + injection H as <- <-. cbn. lia.
    + apply parse_sign_le in H. cbn [length] in *. lia.
  - intros H. apply parse_sign_le in H. lia.
  - intros H. apply parse_value_le in H. lia.
Qed.
Lemma mismatch_le_r p : forall s, (mismatch p s <= length s)%nat.
Proof. induction p as [|x p IH]; intros [|y s]; cbn; try lia. destruct (x =? y); [specialize (IH s)|]; lia. Qed.
Lemma qparse_le alpha p s n q : qparse alpha p s = Ok (n, q) -> (n <= length s)%nat.
Proof.
  unfold qparse, data_parse. destruct (q_empty p).
  - destruct s as [|c s]; [discriminate|]. destruct alpha.
    + intros H. injection H as <- <-. apply mismatch_le_r.
    + destruct (_ || _); intros H; injection H as <- <-; cbn; lia.
  - intros H. injection H as <- <-. apply mismatch_le_r.
Qed.

(** ** The state of the reader *)
Lemma input_split n b pr s : reader_at n b pr s ->
  exists a t, sr_buf b = a ++ sr_input b ++ t /\ sr_ptr b = lenZ a /\ sr_end b = lenZ a + lenZ (sr_input b) /\
    s = sr_input b ++ concat (sr_src b) /\ length (sr_buf b) = n /\ full_pieces (sr_src b).
Proof.
  intros (L & F & a & i & t & B & P & E & S & PR). assert (I : sr_input b = i).
  { unfold sr_input. rewrite B, E, P. rewrite (slice_app a (i ++ t)) by reflexivity. replace (lenZ a + lenZ i - lenZ a) with (lenZ i) by lia. apply firstn_app_exact. }
  rewrite I. exists a, t. auto 10.
Qed.
Lemma left_at n b pr s : reader_at n b pr s -> sr_left b = length s.
Proof. intros R. destruct (input_split _ _ _ _ R) as (a & t & _ & _ & _ & -> & _). unfold sr_left. rewrite app_length. reflexivity. Qed.
Lemma eof_at n b pr s : reader_at n b pr s -> sr_eof b = false.
Proof.
  intros R. destruct (input_split _ _ _ _ R) as (a & t & _ & P & E & _). unfold sr_eof. rewrite P, E. apply Z.ltb_ge.
  pose proof (lenZ_nonneg (sr_input b)). lia.
Qed.
Lemma input_nil n b s : reader_at n b true s -> sr_input b = [] -> s = [].
Proof. intros R I. destruct (input_at _ _ _ _ R) as (r & _ & H). apply H; auto. Qed.
Lemma advance n b pr s u w : (0 < n)%nat -> reader_at n b pr s -> sr_input b = u ++ w ->
  exists b', sr_move b (lenZ u) = Ok b' /\ reader_at n b' true (w ++ concat (sr_src b)).
Proof.
  intros N R I. destruct (input_split _ _ _ _ R) as (a & t & B & P & E & _ & L & F). rewrite I in B, E.
  exact (move_at n b a u w t N L F B P E).
Qed.
Lemma peek_at n b s : reader_at n b true s -> sr_peek b = hd 0 s.
Proof.
  intros R. destruct (input_split _ _ _ _ R) as (a & t & B & P & E & S & _). unfold sr_peek. destruct (sr_input b) as [|c i] eqn:I.
  - rewrite (input_nil _ _ _ R I). rewrite P, E. change (lenZ (@nil Z)) with 0. rewrite Z.add_0_r, Z.ltb_irrefl. reflexivity.
  - rewrite P, E, lenZ_cons, S. pose proof (lenZ_nonneg i). destruct (Z.ltb_spec (lenZ a) (lenZ a + (1 + lenZ i))); [|lia].
    rewrite B. apply (at_char_app a (i ++ t)).
Qed.
Lemma move_one n b c s : (0 < n)%nat -> reader_at n b true (c :: s) -> exists b', sr_move b 1 = Ok b' /\ reader_at n b' true s.
Proof.
  intros N R. destruct (sr_input b) as [|d i] eqn:I; [discriminate (input_nil _ _ _ R I)|].
  destruct (input_split _ _ _ _ R) as (a & t & _ & _ & _ & S & _). rewrite I in S. injection S as -> S.
  destruct (advance n b true _ [d] i N R I) as (b' & M & R'). change (lenZ [d]) with 1 in M. exists b'. split; [exact M|]. rewrite S. exact R'.
Qed.

(** ** Skipping *)
Lemma skip_both n : (0 < n)%nat -> forall s a b f1 f2, reader_at n b true s -> (length s < f1)%nat -> (length s < f2)%nat ->
  exists b' x rest, skip f1 (PFun is_space) (mem_tape (a, s)) = Ok (mem_tape (a ++ x, rest)) /\
    sskip f2 (PFun is_space) b = Ok b' /\ reader_at n b' true rest.
Proof.
  intros N. induction s as [|c s IH]; intros a b f1 f2 R F1 F2; (destruct f1 as [|f1]; [lia|]); (destruct f2 as [|f2]; [lia|]); cbn [skip sskip].
  - rewrite mem_eof_tape, mem_peek_nil, (eof_at _ _ _ _ R), (peek_at _ _ _ R). cbn [negb andb pred_eval hd].
    exists b, [], []. rewrite app_nil_r. auto.
  - rewrite mem_eof_tape, mem_peek_cons, (eof_at _ _ _ _ R), (peek_at _ _ _ R). cbn [negb andb pred_eval hd].
    destruct (is_space c) eqn:E.
    + destruct (move_one n b c s N R) as (b1 & M & R1). rewrite M. cbn [bind].
      pose proof (mem_move_tape a [c] s) as MM. cbn [app] in MM. change (lenZ [c]) with 1 in MM. rewrite MM. cbn [bind].
      cbn [length] in F1, F2. destruct (IH (a ++ [c]) b1 f1 f2 R1) as (b' & x & rest & A & B & C); [lia|lia|].
      exists b', (c :: x), rest. rewrite A, B, <- app_assoc. auto.
    + exists b, [], (c :: s). rewrite app_nil_r. auto.
Qed.
Lemma skip_space_both n a s b : (0 < n)%nat -> reader_at n b true s ->
  exists b' x rest, skip_space (mem_tape (a, s)) = Ok (mem_tape (a ++ x, rest)) /\ sskip_space b = Ok b' /\ reader_at n b' true rest.
Proof.
  intros N R. unfold skip_space, sskip_space. rewrite (left_at _ _ _ _ R). apply skip_both; auto; try lia.
  cbn [m_data mem_tape fst snd]. rewrite app_length. lia.
Qed.

(** ** Running parsers *)
Section Exec.
Context {P : Type} (parse : P -> list Z -> outcome (nat * P)) (E : P -> list (list Z) -> outcome (nat * P)).
Hypothesis parse_le : forall p s n q, parse p s = Ok (n, q) -> (n <= length s)%nat.
Hypothesis E_nil : forall p, E p [] = Ok (0%nat, p).
Hypothesis E_cons : forall p s cs, s <> [] ->
  E p (s :: cs) = do (n, p) <- parse p s; if (n =? length s)%nat then do (m, p) <- E p cs; Ok ((n + m)%nat, p) else Ok (n, p).

Definition exec_agrees (n : nat) (s : list Z) (o : outcome (nat * P)) (y : outcome (sreader * P)) : Prop :=
  match o with
  | Ok (k, q) => exists b', y = Ok (b', q) /\ (k <= length s)%nat /\ reader_at n b' true (skipn k s)
  | AssertFail => y = AssertFail
  | Throw => y = Throw
  | UB => y = UB
  | NoFuel => y = NoFuel
  end.

Lemma sexec_chunks n : (0 < n)%nat -> forall k s b, (length s <= k)%nat -> reader_at n b true s ->
  exists chunks, Forall (fun x => x <> []) chunks /\ concat chunks = s /\
    forall p fuel, (length s < fuel)%nat -> exec_agrees n s (E p chunks) (sexec parse fuel p b).
Proof.
  intros N. induction k as [|k IH]; intros s b K R.
  - destruct s; [|cbn in K; lia]. exists []. split; [constructor|]. split; [reflexivity|]. intros p [|fuel] L; [lia|].
    rewrite E_nil. cbn [sexec exec_agrees]. destruct (sr_input b) as [|c i] eqn:I.
    + exists b. auto.
    + destruct (input_split _ _ _ _ R) as (a & t & _ & _ & _ & St & _). rewrite I in St. discriminate.
  - destruct (sr_input b) as [|c i] eqn:I.
    + pose proof (input_nil _ _ _ R I). subst s. exists []. split; [constructor|]. split; [reflexivity|]. intros p [|fuel] L; [lia|].
      rewrite E_nil. cbn [sexec exec_agrees]. rewrite I. exists b. auto.
    + destruct (input_split _ _ _ _ R) as (a & t & _ & _ & _ & St & _). set (u := sr_input b) in *.
      destruct (advance n b true s u [] N R) as (b1 & M & R1); [rewrite app_nil_r; reflexivity|]. cbn [app] in R1.
      assert (LS : length s = (length u + length (concat (sr_src b)))%nat) by (rewrite St, app_length; reflexivity).
      assert (LU : (0 < length u)%nat) by (rewrite I; cbn; lia).
      destruct (IH (concat (sr_src b)) b1) as (cs & Fc & Cc & Hc); [lia|exact R1|].
      assert (NU : u <> []) by (rewrite I; discriminate).
      exists (u :: cs). split; [constructor; auto|]. split; [cbn [concat]; rewrite Cc, St; reflexivity|].
      intros p [|fuel] L; [lia|]. rewrite (E_cons p u cs NU).
      assert (X : sexec parse (S fuel) p b = do (m, p1) <- parse p u; do b2 <- sr_move b (Z.of_nat m);
        if (m =? length u)%nat then sexec parse fuel p1 b2 else Ok (b2, p1)).
      { cbn [sexec]. fold u. rewrite I. reflexivity. }
      rewrite X. destruct (parse p u) as [[m q]| | | |] eqn:Ep; cbn [bind exec_agrees]; try reflexivity.
      pose proof (parse_le _ _ _ _ Ep) as Lm. destruct (Nat.eqb_spec m (length u)) as [->|Nm].
      * change (Z.of_nat (length u)) with (lenZ u). rewrite M. cbn [bind].
        specialize (Hc q fuel). destruct (E q cs) as [[j r]| | | |]; cbn [bind exec_agrees] in *; try (apply Hc; lia).
        destruct Hc as (b' & H1 & H2 & H3); [lia|]. exists b'. split; [exact H1|]. split; [lia|].
        rewrite St, skipn_app, skipn_all2 by lia. replace (length u + j - length u)%nat with j by lia. exact H3.
      * destruct (advance n b true s (firstn m u) (skipn m u) N R) as (b2 & M2 & R2); [symmetry; apply firstn_skipn|].
        assert (LM : lenZ (firstn m u) = Z.of_nat m) by (unfold lenZ; rewrite firstn_length; lia). rewrite LM in M2. rewrite M2. cbn [bind exec_agrees].
        exists b2. split; [reflexivity|]. split; [lia|]. rewrite St, skipn_app. replace (m - length u)%nat with O by lia. exact R2.
Qed.
End Exec.

(** What is read from memory and through the buffer. *)
Definition same (n : nat) (m : memory) (b : sreader) : Prop := exists a s, m = mem_tape (a, s) /\ reader_at n b true s.
Definition agree (n : nat) {A} (x : outcome (memory * option A)) (y : outcome (sreader * option A)) : Prop :=
  match x, y with
  | Ok (m, Some v), Ok (b, Some v') => v = v' /\ same n m b
  | Ok (_, None), Ok (_, None) => True
  | AssertFail, AssertFail | Throw, Throw | UB, UB | NoFuel, NoFuel => True
  | _, _ => False
  end.

Lemma chunk_of (s : list Z) (cs : list (list Z)) : concat cs = s -> concat cs = concat (match s with [] => [] | _ => [s] end) /\
  Forall (fun x : list Z => x <> []) (match s with [] => [] | _ => [s] end).
Proof. intros ->. destruct s; cbn; [auto|]. rewrite app_nil_r. split; [reflexivity|]. repeat constructor. discriminate. Qed.

Lemma move_by a s k : (k <= length s)%nat -> mem_move (mem_tape (a, s)) (Z.of_nat k) = Ok (mem_tape (a ++ firstn k s, skipn k s)).
Proof.
  intros L. rewrite <- (firstn_skipn k s) at 1. replace (Z.of_nat k) with (lenZ (firstn k s)) by (unfold lenZ; rewrite firstn_length; lia).
  apply mem_move_tape.
Qed.

Lemma int_both n w sg base a s b : (0 < n)%nat -> reader_at n b true s ->
  agree n (execute (int_read w sg base) VInt (mem_tape (a, s))) (sexec_int w sg base b).
Proof.
  intros N R. destruct (sexec_chunks (int_parse w sg) (exec w sg) (int_parse_le w sg)) with (n := n) (k := length s) (s := s) (b := b)
    as (cs & Fc & Cc & H); auto.
  { intros p [|c x] ys Nx; [congruence|reflexivity]. }
  specialize (H (iparser_init base) (S (length s)) (Nat.lt_succ_diag_r _)).
  unfold execute. rewrite mem_input_tape. cbn [snd]. destruct (chunk_of s cs Cc) as [Q Fq].
  assert (X : exec w sg (iparser_init base) (match s with [] => [] | _ => [s] end) = exec w sg (iparser_init base) cs).
  { rewrite (exec_concat w sg _ cs Fc), Cc. destruct s; reflexivity. }
  unfold int_read. rewrite X. unfold sexec_int. rewrite (left_at _ _ _ _ R).
  destruct (exec w sg (iparser_init base) cs) as [[k q]| | | |]; cbn [exec_agrees] in H; [|rewrite H; exact I..].
  destruct H as (b' & H1 & H2 & H3). rewrite H1. cbn [bind]. rewrite (move_by a s k H2). cbn [bind agree].
  destruct (int_ready q); cbn [option_map]; [|exact I]. split; [reflexivity|]. eexists _, _. split; [reflexivity|exact H3].
Qed.

Lemma bool_concat alpha c1 c2 : Forall (fun x => x <> []) c1 -> Forall (fun x => x <> []) c2 -> concat c1 = concat c2 -> bool_read alpha c1 = bool_read alpha c2.
Proof.
  intros F1 F2 C. destruct alpha.
  - rewrite (bool_read_alpha c1 F1), (bool_read_alpha c2 F2), C. reflexivity.
  - rewrite (bool_read_digit c1 F1), (bool_read_digit c2 F2), C. reflexivity.
Qed.

Lemma bool_both n alpha a s b : (0 < n)%nat -> reader_at n b true s ->
  agree n (execute (bool_read alpha) VBool (mem_tape (a, s))) (sexec_bool alpha b).
Proof.
  intros N R. destruct (sexec_chunks (qparse alpha) (qexec alpha) (qparse_le alpha)) with (n := n) (k := length s) (s := s) (b := b)
    as (cs & Fc & Cc & H); auto.
  { intros p [|c x] ys Nx; [congruence|reflexivity]. }
  specialize (H qparser_init (S (length s)) (Nat.lt_succ_diag_r _)).
  unfold execute. rewrite mem_input_tape. cbn [snd]. destruct (chunk_of s cs Cc) as [Q Fq].
  rewrite <- (bool_concat alpha cs _ Fc Fq Q).
  unfold bool_read, sexec_bool. rewrite (left_at _ _ _ _ R).
  destruct (qexec alpha qparser_init cs) as [[k q]| | | |]; cbn [exec_agrees] in H; [|rewrite H; exact I..].
  destruct H as (b' & H1 & H2 & H3). rewrite H1. cbn [bind]. rewrite (move_by a s k H2). cbn [bind agree].
  destruct (qready q); cbn [option_map]; [|exact I]. split; [reflexivity|]. eexists _, _. split; [reflexivity|exact H3].
Qed.

(** ** Characters and strings *)
Lemma char_both n a s b : (0 < n)%nat -> reader_at n b true s ->
  agree n (let (m1, c) := mem_get (mem_tape (a, s)) in Ok (m1, if mem_eof m1 then None else Some (VChar c)))
    (do (b1, c) <- sr_get b; Ok (b1, if sr_eof b1 then None else Some (VChar c))).
Proof.
  intros N R. destruct s as [|c s].
  - unfold mem_get. rewrite mem_peek_nil. cbn [m_data mem_tape fst snd m_ptr].
    destruct (input_split _ _ _ _ R) as (x & t & B & P & E & S & L & F). symmetry in S. apply app_eq_nil in S. destruct S as [S1 S2].
    unfold sr_get, sr_move. cbn [sr_ptr sr_end sr_buf sr_src]. rewrite P, E, S1. change (lenZ (@nil Z)) with 0. rewrite Z.add_0_r.
    pose proof (lenZ_nonneg x). destruct (Z.leb_spec 0 (lenZ x + 1)); [|lia]. cbn [assert_then].
    destruct (Z.eqb_spec (lenZ x + 1) (lenZ x)); [lia|]. cbn [bind]. unfold sr_eof. cbn [sr_ptr sr_end].
    destruct (Z.ltb_spec (lenZ x) (lenZ x + 1)); [|lia].
    unfold mem_eof, mem_end. cbn [m_data m_ptr]. rewrite app_nil_r.
    destruct (Z.ltb_spec (lenZ a) (lenZ a + 1)); [|lia]. exact I.
  - rewrite mem_get_cons, mem_eof_tape. destruct (sr_input b) as [|d i] eqn:Ei; [discriminate (input_nil _ _ _ R Ei)|].
    destruct (get_at n b true _ d i N R Ei) as (b' & s' & G & S & R'). injection S as -> <-. rewrite G. cbn [bind].
    rewrite (eof_at _ _ _ _ R'). cbn [agree]. split; [reflexivity|]. eexists _, _. split; [reflexivity|exact R'].
Qed.

Lemma free_app p i : forall size r, free_prefix p size (i ++ r)
  = let xs := free_prefix p size i in if (length xs =? length i)%nat then xs ++ free_prefix p (size - length i) r else xs.
Proof.
  induction i as [|c i IH]; intros size r; cbv zeta.
  - cbn [app]. assert (X : free_prefix p size [] = []) by (destruct size; reflexivity). rewrite X. cbn [length Nat.eqb app]. rewrite Nat.sub_0_r. reflexivity.
  - destruct size as [|k]; cbn [app free_prefix]; [reflexivity|]. destruct (p c); [reflexivity|]. cbn [length Nat.eqb]. rewrite IH. cbv zeta.
    destruct (_ =? _)%nat; reflexivity.
Qed.

Lemma still_at n p : (0 < n)%nat -> forall k s b size fuel, (length s <= k)%nat -> reader_at n b true s -> (length s < fuel)%nat ->
  exists b', still fuel p b size = Ok (b', free_prefix (pred_eval p) size s) /\
    reader_at n b' true (skipn (length (free_prefix (pred_eval p) size s)) s).
Proof.
  intros N. induction k as [|k IH]; intros s b size fuel K R L; (destruct fuel as [|fuel]; [lia|]); cbn [still]; rewrite till_copy_free;
    destruct (input_split _ _ _ _ R) as (a & t & _ & _ & _ & S & _); set (u := sr_input b) in *; set (r := concat (sr_src b)) in *;
    set (xs := free_prefix (pred_eval p) size u);
    (destruct (free_prefix_spec (pred_eval p) size u) as (w & U & _ & Lx & _); fold xs in U, Lx);
    (destruct (advance n b true s xs w N R U) as (b1 & M & R1)); fold r in R1; rewrite M; cbn [bind];
    assert (LU : length u = (length xs + length w)%nat) by (rewrite U at 1; rewrite app_length; reflexivity);
    pose proof (free_app (pred_eval p) u size r) as FA; cbv zeta in FA; fold xs in FA; rewrite <- S in FA.
  - assert (S0 : s = []) by (destruct s; [reflexivity|cbn in K; lia]). rewrite S0 in S. symmetry in S. apply app_eq_nil in S. destruct S as [U0 Rr].
    assert (X0 : xs = []) by (rewrite U0 in LU; cbn in LU; destruct xs; [reflexivity|cbn in LU; lia]).
    assert (W0 : w = []) by (rewrite U0 in LU; cbn in LU; destruct w; [reflexivity|cbn in LU; lia]).
    rewrite U0. cbn [length Nat.eqb]. rewrite orb_true_r. cbn [orb]. exists b1.
    rewrite S0 in *. assert (F0 : free_prefix (pred_eval p) size [] = []) by (destruct size; reflexivity). rewrite F0, X0. split; [reflexivity|].
    cbn [length skipn]. rewrite W0, Rr in R1. exact R1.
  - destruct ((size - length xs =? 0)%nat || (length u =? 0)%nat || negb (length xs =? Nat.min (length u) size)%nat) eqn:C.
    + assert (FX : free_prefix (pred_eval p) size s = xs).
      { rewrite FA. destruct (Nat.eqb_spec (length xs) (length u)) as [Q|Q]; [|reflexivity].
        rewrite !orb_true_iff, negb_true_iff, !Nat.eqb_eq, Nat.eqb_neq in C. destruct C as [[C|C]|C].
        - replace (size - length u)%nat with O by lia. cbn. apply app_nil_r.
        - assert (I0 : u = []) by (destruct u; [reflexivity|discriminate]). rewrite (input_nil _ _ _ R I0) in S. rewrite I0 in S.
          cbn in S. rewrite <- S. assert (F0 : forall z, free_prefix (pred_eval p) z [] = []) by (intros [|z]; reflexivity). rewrite F0. apply app_nil_r.
        - exfalso. apply C. lia. }
      rewrite FX. exists b1. split; [reflexivity|]. rewrite S, U, <- app_assoc, skipn_eq_app by reflexivity. exact R1.
    + rewrite !orb_false_iff, negb_false_iff, !Nat.eqb_neq, Nat.eqb_eq in C. destruct C as [[C1 C2] C3].
      assert (W0 : w = []) by (destruct w; [reflexivity|cbn in LU; lia]).
      assert (XU : xs = u) by (rewrite W0, app_nil_r in U; symmetry; exact U).
      rewrite W0 in R1. cbn [app] in R1. assert (LS : length s = (length u + length r)%nat) by (rewrite S, app_length; reflexivity).
      destruct (IH r b1 (size - length xs)%nat fuel) as (b2 & H1 & H2); [lia|exact R1|lia|].
      rewrite H1. cbn [bind]. rewrite XU in *. rewrite Nat.eqb_refl in FA. rewrite FA. exists b2. split; [reflexivity|].
      rewrite app_length, S, skipn_app, skipn_all2 by lia.
      replace (length u + length (free_prefix (pred_eval p) (size - length u) r) - length u)%nat with (length (free_prefix (pred_eval p) (size - length u) r)) by lia.
      exact H2.
Qed.

Lemma till_both n p : (0 < n)%nat -> forall k s a b stored size f1 f2, (length s <= k)%nat -> (0 < size)%nat -> reader_at n b true s ->
  (length s < f1)%nat -> (length s < f2)%nat ->
  exists a' s' b' r, read_till_string f1 p (mem_tape (a, s)) stored size = Ok (mem_tape (a', s'), r) /\
    sread_till f2 p b stored size = Ok (b', r) /\ reader_at n b' true s'.
Proof.
  intros N. induction k as [|k IH]; intros s a b stored size f1 f2 K Sz R F1 F2; (destruct f1 as [|f1]; [lia|]); (destruct f2 as [|f2]; [lia|]);
    cbn [read_till_string sread_till]; rewrite (left_at _ _ _ _ R);
    (destruct (till_buffered_spec p a s size) as (rest & E & T)); set (xs := free_prefix (pred_eval p) size s) in *;
    (destruct (still_at n p N (length s) s b size (S (S (length s)))) as (b1 & H1 & H2); [lia|exact R|lia|]); fold xs in H1, H2;
    rewrite T, H1; cbn [bind];
    assert (Rs : skipn (length xs) s = rest) by (rewrite E at 1; apply skipn_eq_app; reflexivity); rewrite Rs in H2;
    assert (LS : length s = (length xs + length rest)%nat) by (rewrite E at 1; rewrite app_length; reflexivity);
    (destruct (Nat.ltb_spec (length xs) size) as [Lt|Ge]; [exists (a ++ xs), rest, b1, (stored ++ xs); auto|]).
  - lia.
  - destruct (IH rest (a ++ xs) b1 (stored ++ xs) (length stored + size)%nat f1 f2) as (a' & s' & b' & r & A & B & C); try lia; [exact H2|].
    exists a', s', b', r. auto.
Qed.

Lemma string_both n cap a s b : (0 < n)%nat -> reader_at n b true s ->
  exists a' s' b' r, read_string cap (mem_tape (a, s)) = Ok (mem_tape (a', s'), r) /\ sread_string cap b = Ok (b', r) /\ reader_at n b' true s'.
Proof.
  intros N R. unfold read_string, sread_string. rewrite (left_at _ _ _ _ R).
  apply (till_both n _ N (length s)); auto; try lia. cbn [m_data mem_tape fst snd]. rewrite app_length. lia.
Qed.

(** ** Arguments of all types *)
Section Args.
Context (t : text).
Fixpoint sread_list (l : list rtype) (b : sreader) : outcome (sreader * option (list value)) :=
  match l with
  | [] => Ok (b, Some [])
  | ty :: l => do (b1, v) <- sread_arg t ty b;
               match v with None => Ok (b1, None) | Some v => omap (spush v) (sread_list l b1) end
  end.
Lemma sread_tuple l b : sread_arg t (TTuple l) b = omap sas_list (sread_list l b).
Proof. reflexivity. Qed.
Lemma sread_loop ty k : forall b,
  (fix loop (n : nat) (b : sreader) : outcome (sreader * option (list value)) :=
      match n with
      | O => Ok (b, Some [])
      | S k => do (b1, v) <- sread_arg t ty b;
               match v with None => Ok (b1, None) | Some v => omap (spush v) (loop k b1) end
      end) k b = sread_list (repeat ty k) b.
Proof.
  induction k as [|k IH]; intro b; [reflexivity|]. cbn [repeat sread_list].
  destruct (sread_arg t ty b) as [[b1 [v|]]| | | |]; cbn [bind]; [now rewrite IH|..]; reflexivity.
Qed.
Lemma sread_array k ty b : sread_arg t (TArray k ty) b = omap sas_list (sread_list (repeat ty k) b).
Proof. rewrite <- sread_loop. reflexivity. Qed.
Lemma sread_vector ty b : sread_arg t (TVector ty) b =
  do b <- sskip_space b;
  do (b1, v) <- sexec_int 64 false (t_base t) b;
  match v with
  | Some (VInt n) => if 2 ^ 63 <=? n then Throw else omap sas_list (sread_list (repeat ty (Z.to_nat n)) b1)
  | _ => Ok (b1, None)
  end.
Proof.
  cbn [sread_arg]. destruct (sskip_space b) as [b0| | | |]; [|reflexivity..]. cbn [bind].
  destruct (sexec_int _ _ _ _) as [[b1 [[]|]]| | | |]; try reflexivity. cbn [bind].
  destruct (_ <=? _); [reflexivity|]. now rewrite sread_loop.
Qed.

Context (n : nat).
Hypothesis N : (0 < n)%nat.

Definition arg_agrees (ty : rtype) : Prop := forall a s b, reader_at n b true s -> agree n (read_arg t ty (mem_tape (a, s))) (sread_arg t ty b).

Lemma list_agrees l : Forall arg_agrees l -> forall a s b, reader_at n b true s -> agree n (read_list t l (mem_tape (a, s))) (sread_list l b).
Proof.
  intros F. induction F as [|ty l H F IH]; intros a s b R; cbn [read_list sread_list].
  - cbn. split; [reflexivity|]. eexists _, _. split; [reflexivity|exact R].
  - specialize (H a s b R). destruct (read_arg t ty (mem_tape (a, s))) as [[m1 [v|]]| | | |];
      destruct (sread_arg t ty b) as [[b1 [v'|]]| | | |]; cbn [agree] in H; try contradiction; try exact I.
    destruct H as (<- & a1 & s1 & -> & R1). cbn [bind]. specialize (IH a1 s1 b1 R1).
    destruct (read_list t l (mem_tape (a1, s1))) as [[m2 [vs|]]| | | |];
      destruct (sread_list l b1) as [[b2 [vs'|]]| | | |]; cbn [agree] in IH; try contradiction; try exact I.
    destruct IH as (<- & Sm). cbn. auto.
Qed.

Lemma as_list_agrees x y : agree n x y -> agree n (omap as_list x) (omap sas_list y).
Proof.
  destruct x as [[m [v|]]| | | |]; destruct y as [[b [v'|]]| | | |]; cbn; try contradiction; auto. intros (<- & S). auto.
Qed.

Lemma all_agree : forall ty, arg_agrees ty.
Proof.
  fix IH 1. intros [w sg| | |cap|l|k ty|ty] a s b R.
  - cbn [read_arg sread_arg]. destruct (skip_space_both n a s b N R) as (b' & x & rest & A & B & C). rewrite A, B. cbn [bind]. now apply int_both.
  - cbn [read_arg sread_arg]. destruct (skip_space_both n a s b N R) as (b' & x & rest & A & B & C). rewrite A, B. cbn [bind]. now apply bool_both.
  - cbn [read_arg sread_arg]. destruct (skip_space_both n a s b N R) as (b' & x & rest & A & B & C). rewrite A, B. cbn [bind]. now apply char_both.
  - cbn [read_arg sread_arg]. destruct (skip_space_both n a s b N R) as (b' & x & rest & A & B & C). rewrite A, B. cbn [bind].
    destruct (string_both n cap (a ++ x) rest b' N C) as (a2 & s2 & b2 & r & A2 & B2 & C2). rewrite A2, B2. cbn [bind agree].
    split; [reflexivity|]. eexists _, _. split; [reflexivity|exact C2].
  - rewrite read_tuple, sread_tuple. apply as_list_agrees. apply list_agrees; [|exact R].
    clear -IH. induction l as [|ty l IHl]; constructor; auto.
  - rewrite read_array, sread_array. apply as_list_agrees. apply list_agrees; [|exact R].
    pose proof (IH ty) as H. clear -H. induction k; cbn; constructor; auto.
  - rewrite read_vector, sread_vector. destruct (skip_space_both n a s b N R) as (b' & x & rest & A & B & C). rewrite A, B. cbn [bind].
    pose proof (int_both n 64 false (t_base t) (a ++ x) rest b' N C) as H.
    destruct (execute (int_read 64 false (t_base t)) VInt (mem_tape (a ++ x, rest))) as [[m1 [v|]]| | | |];
      destruct (sexec_int 64 false (t_base t) b') as [[b1 [v'|]]| | | |]; cbn [agree] in H; try contradiction; try exact I.
    destruct H as (<- & a1 & s1 & -> & R1). cbn [bind]. destruct v as [z| | | |]; try exact I.
    destruct (_ <=? _); [exact I|]. apply as_list_agrees. apply list_agrees; [|exact R1].
    pose proof (IH ty) as H. clear -H. induction (Z.to_nat z); cbn; constructor; auto.
Qed.
End Args.
