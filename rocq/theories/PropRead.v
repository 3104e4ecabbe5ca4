(** C107: structured data written as spaced text is read back with white space skipped. *)
From Coq Require Import ZArith List Bool Lia.
From Verif Require Import Outcome IntTypes StringModel IntTextModel IntTextProofs FloatTextModel FloatTextProofs
  FormatModel FormatProofs DeviceModel DeviceProofs BufferProofs ReadModel ReadProofs PropIntText.
Import ListNotations.
Local Open Scope Z_scope.

Lemma mem_open_tape s : mem_open s = mem_tape ([], s).
Proof. reflexivity. Qed.

Opaque int_encode.
Lemma stands_shown t : t_base t = 0 \/ 2 <= t_base t <= 36 ->
  (forall ty a v, stands ty a v -> exists x, shows false t a x)
  /\ (forall ts l vs, stands_all ts l vs -> exists its, shows_all false t l its).
Proof.
  intro B. apply stands_both.
  - intros w sg x W I _. destruct (int_encode_spec w sg (int_fmt t) x W B I) as (ds & E & _). eexists. apply shows_int, E.
  - intros b. eexists. apply shows_bool.
  - intros c _. eexists. apply shows_char.
  - intros n s _ _. eexists. apply shows_str.
  - intros ts l vs _ (its & H). eexists. apply shows_tuple, H.
  - intros ty assoc l vs _ (its & H). eexists. eapply shows_seq; [exact H|]. reflexivity.
  - intros ty assoc l vs _ L _ (its & H). destruct (size_shown t (length l) B ltac:(lia)) as (s & E).
    eexists. eapply shows_seq; [exact H|]. exists s. split; [exact E|reflexivity].
  - exists []. constructor.
  - intros ty ts a l v vs _ (x & H) _ (its & H'). exists (x :: its). constructor; assumption.
Qed.

(** Any nesting of tuples, arrays and vectors over non-zero integers, booleans,
    characters and words: writing with a separator of white space and reading into
    arguments of the same types gives the values back and leaves no word unread. *)
Theorem C107_round_trip : forall t sp co ts args vs,
  t_base t = 0 \/ 2 <= t_base t <= 36 -> sp <> [] -> Forall space sp -> stands_all ts args vs ->
  exists ls out m, settles (fun n => write n (stack false t sp co false) args) ls out
    /\ read_args t ts (mem_open out) = Ok (m, Some (VList vs))
    /\ Forall space (mem_input m).
Proof.
  intros t sp co ts args vs B N F St.
  destruct (proj2 (stands_shown t B) _ _ _ St) as (its & Sh).
  destruct (shows_written false t sp co) as (_ & W). specialize (W args its Sh false).
  replace (lead_all sp false its) with (@nil Z) in W by (destruct its; reflexivity). cbn [app] in W.
  destruct (proj2 (stands_reads t sp co N F B) _ _ _ St its Sh) as (_ & _ & T).
  destruct (T [] [] [] (Forall_nil _) I (Forall_nil _)) as (c & ws & E & _ & Fw).
  eexists _, _, (mem_tape (c, ws)). split; [exact W|]. cbn [app] in E. rewrite !app_nil_r in E. split.
  - unfold read_args. rewrite read_tuple, mem_open_tape, E. reflexivity.
  - rewrite mem_input_tape. exact Fw.
Qed.
Print Assumptions C107_round_trip.

(** The text of a list of words in any layout: [layout t ts vs s] when [s] consists of
    the texts of the scalars [vs], white space between them and anywhere else. *)
Inductive layout (t : text) : list rtype -> list value -> list Z -> Prop :=
| layout_nil ws : Forall space ws -> layout t [] [] ws
| layout_cons ws ty a w v ts vs rest : Forall space ws -> stands ty a v -> shows false t a (Word w) ->
    delimited rest -> layout t ts vs rest -> layout t (ty :: ts) (v :: vs) (ws ++ w ++ rest).

Lemma layout_reads t ts vs s : t_base t = 0 \/ 2 <= t_base t <= 36 -> layout t ts vs s ->
  Forall is_char s /\ forall a ws0, Forall space ws0 ->
    exists c ws, read_list t ts (mem_tape (a, ws0 ++ s)) = Ok (mem_tape (a ++ c, ws), Some vs)
    /\ c ++ ws = ws0 ++ s /\ Forall space ws.
Proof.
  intros B H. induction H as [ws F|ws ty a w v ts vs rest F St Sh D H (C & IH)].
  - split; [eapply Forall_impl; [exact space_char|exact F]|]. intros a ws0 F0. exists [], (ws0 ++ ws). cbn. rewrite app_nil_r.
    split; [reflexivity|]. split; [reflexivity|]. apply Forall_app. auto.
  - destruct (proj1 (stands_reads t [32] [] ltac:(discriminate) ltac:(repeat constructor) B) _ _ _ St _ Sh) as (_ & Cw & T).
    cbn [render] in Cw, T. split.
    { rewrite !Forall_app. split; [|auto]. eapply Forall_impl; [exact space_char|exact F]. }
    intros b ws0 F0. destruct (T b (ws0 ++ ws) rest) as (c & ws' & E & S & Fw); [apply Forall_app; auto|assumption..|].
    cbn [read_list]. rewrite app_assoc, E. cbn [bind].
    destruct (IH (b ++ c) ws' Fw) as (c' & ws'' & E' & S' & Fw'). rewrite E'. cbn.
    exists (c ++ c'), ws''. rewrite <- !app_assoc. split; [reflexivity|]. split; [|exact Fw'].
    rewrite S'. rewrite app_assoc, S, <- !app_assoc. reflexivity.
Qed.

(** Words are read whatever white space is around them. *)
Theorem C107_layout : forall t ts vs s, t_base t = 0 \/ 2 <= t_base t <= 36 -> layout t ts vs s ->
  exists m, read_args t ts (mem_open s) = Ok (m, Some (VList vs)) /\ Forall space (mem_input m).
Proof.
  intros t ts vs s B L. destruct (layout_reads t ts vs s B L) as (_ & R).
  destruct (R [] [] (Forall_nil _)) as (c & ws & E & _ & F). exists (mem_tape (c, ws)). split.
  - unfold read_args. rewrite read_tuple, mem_open_tape. cbn [app] in E. rewrite E. reflexivity.
  - rewrite mem_input_tape. exact F.
Qed.
Print Assumptions C107_layout.

Definition numeric (ty : rtype) : Prop := match ty with TInt _ _ | TBool | TChar | TVector _ => True | _ => False end.

Lemma execute_empty {A} (parse : list (list Z) -> outcome (nat * option A)) wrap a : parse [] = Ok (0%nat, None) ->
  execute parse wrap (mem_tape (a, [])) = Ok (mem_tape (a, []), None).
Proof.
  intro P. unfold execute. rewrite mem_input_tape. cbn [snd]. rewrite P. cbn [bind].
  pose proof (mem_move_tape a [] []) as M. cbn [app] in M. rewrite app_nil_r in M.
  change (lenZ []) with (Z.of_nat 0) in M. rewrite M. reflexivity.
Qed.

(** When the words run out, reading returns false. *)
Theorem C107_missing : forall t ts vs s ty more, t_base t = 0 \/ 2 <= t_base t <= 36 -> layout t ts vs s -> numeric ty ->
  exists m, read_args t (ts ++ ty :: more) (mem_open s) = Ok (m, None).
Proof.
  intros t ts vs s ty more B L Nm. destruct (layout_reads t ts vs s B L) as (_ & R).
  destruct (R [] [] (Forall_nil _)) as (c & ws & E & _ & F). cbn [app] in E.
  assert (Sk : skip_space (mem_tape (c, ws)) = Ok (mem_tape (c ++ ws, []))).
  { rewrite <- (app_nil_r ws) at 1. now apply skip_space_tape. }
  assert (One : exists m, read_arg t ty (mem_tape (c, ws)) = Ok (m, None)).
  { destruct ty; try contradiction; cbn [read_arg]; rewrite Sk; cbn [bind].
    - rewrite execute_empty by reflexivity. eauto.
    - rewrite execute_empty by reflexivity. eauto.
    - unfold mem_get. eexists. unfold mem_eof, mem_end. cbn [m_data m_ptr mem_tape fst snd]. rewrite app_nil_r.
      destruct (Z.ltb_spec (lenZ (c ++ ws)) (lenZ (c ++ ws) + 1)); [reflexivity|lia].
    - rewrite execute_empty by reflexivity. cbn [bind]. eauto. }
  destruct One as (m & One). exists m.
  unfold read_args. rewrite read_tuple, mem_open_tape.
  assert (G : forall ts m0 vs, read_list t ts m0 = Ok (mem_tape (c, ws), Some vs) ->
            read_list t (ts ++ ty :: more) m0 = Ok (m, None)).
  { clear - One. induction ts as [|ty0 ts IH]; intros m0 vs E; cbn [read_list app] in *.
    - injection E as -> _. rewrite One. reflexivity.
    - destruct (read_arg t ty0 m0) as [[m1 [v|]]| | | |]; try discriminate E. cbn [bind] in *.
      unfold omap in E. destruct (read_list t ts m1) as [[m2 [l|]]| | | |] eqn:E1; try discriminate E. cbn in E.
      injection E as -> _. rewrite (IH _ _ E1). reflexivity. }
  rewrite (G ts _ vs E). reflexivity.
Qed.
Print Assumptions C107_missing.

(** A vector of two pairs and a string: "2 1 x -7 y  word", written and laid out by hand. *)
Example C107_case :
  let args := [ASeq false true [ATuple [AInt 32 true 1; AChar 120]; ATuple [AInt 32 true (-7); AChar 121]]; AStr [119; 111; 114; 100]] in
  let ts := [TVector (TTuple [TInt 32 true; TChar]); TStr 0] in
  let vs := [VList [VList [VInt 1; VChar 120]; VList [VInt (-7); VChar 121]]; VStr [119; 111; 114; 100]] in
  stands_all ts args vs
  /\ omap snd (write 20 (stack false plain_text [32] [58] false) args) = Ok [50; 32; 49; 32; 120; 32; 45; 55; 32; 121; 32; 119; 111; 114; 100]
  /\ omap snd (read_args plain_text ts (mem_open [10; 50; 32; 32; 49; 32; 120; 9; 45; 55; 32; 121; 32; 119; 111; 114; 100; 32]))
     = Ok (Some (VList vs)).
Proof.
  cbv zeta. split; [|split; vm_compute; reflexivity].
  assert (G : forall c, 33 <= c < 256 -> graphic c) by (intros; unfold graphic, is_char, space; lia).
  constructor; [|constructor; [|constructor]].
  - apply stands_vector; [discriminate|vm_compute; reflexivity|].
    repeat (constructor; [|]); try apply stands_nil; repeat first [apply stands_tuple | constructor];
      try (apply G; lia); try lia; cbn; lia.
  - constructor; [discriminate|]. repeat constructor; unfold is_char, space; lia.
Qed.

Lemma encode_zero w sg f s : 8 <= w <= 64 -> f_base f = 0 \/ 2 <= f_base f <= 36 -> sg && f_showpos f = false ->
  int_encode w sg f 0 = Ok s -> s = [48].
Proof.
  intros W B P E.
  assert (I : in_ity (int_type w sg) 0).
  { pose proof (pow2_ge w ltac:(lia)). unfold in_ity, ilow, ihigh, int_type. cbn [bits sgn].
    destruct sg; [|lia]. pose proof (Z.pow_pos_nonneg 2 (w - 1)). lia. }
  destruct (int_encode_spec w sg f 0 W B I) as (ds & E' & (Ev & Fd & Cn) & _). rewrite E' in E. injection E as <-.
  unfold sign_prefix, base_prefix. rewrite P. cbn [Z.ltb Z.compare Z.abs Z.eqb negb app]. rewrite andb_false_r. cbn [app].
  destruct Cn as [->|(d & tl & -> & Nd)]; [reflexivity|]. exfalso.
  assert (Bb : 2 <= eff_base f). { unfold eff_base. destruct (Z.eqb_spec (f_base f) 0); lia. }
  inversion_clear Fd as [|? ? Hd Ft]. unfold eval in Ev. cbn [eval_from] in Ev.
  assert (Ft' : Forall (fun d => 0 <= d) tl) by (eapply Forall_impl; [|exact Ft]; cbn; lia).
  pose proof (eval_from_ge (eff_base f) (0 * eff_base f + d) tl ltac:(lia) ltac:(lia) Ft') as G. cbn [Z.abs] in Ev. lia.
Qed.

Lemma zero_then_space w sg base c rest : 8 <= w -> space c -> Forall is_char rest -> base = 0 \/ 2 <= base <= 36 ->
  exists v, int_read w sg base [48 :: c :: rest] = Ok (1%nat, Some v) /\ v <> 0
    /\ exists k, 1 <= k <= 39 /\ v = wrap (int_type w sg) (- k).
Proof.
  intros W S F B.
  assert (Bb : (if base =? 0 then 8 else base) <= 36) by (destruct (Z.eqb_spec base 0); lia).
  pose proof (stops_delimited (if base =? 0 then 8 else base) [c] Bb S) as Dg. cbn [stops] in Dg.
  assert (M : base_mark base c = None).
  { unfold base_mark. replace ((c =? 120) || (c =? 88)) with false by (symmetry; apply orb_false_iff; rewrite !Z.eqb_neq; unfold space in S; lia). cbn [andb].
    replace ((c =? 98) || (c =? 66)) with false by (symmetry; apply orb_false_iff; rewrite !Z.eqb_neq; unfold space in S; lia).
    reflexivity. }
  destruct (C20_zero_misread_refuted w sg base c rest W (space_char c S) F B M Dg) as (v & E & N & V).
  exists v. split; [exact E|]. split; [exact N|].
  destruct (_ <=? 10).
  - exists (48 - c). split; [unfold space in S; lia|]. rewrite V. f_equal. lia.
  - exists 1. split; [lia|]. rewrite V. f_equal. unfold digit_of.
    replace ((48 <=? c) && (c <=? 57)) with false by (symmetry; apply andb_false_iff; rewrite !Z.leb_gt; unfold space in S; lia).
    replace ((65 <=? c) && (c <=? 90)) with false by (symmetry; apply andb_false_iff; rewrite !Z.leb_gt; unfold space in S; lia).
    replace ((97 <=? c) && (c <=? 122)) with false by (symmetry; apply andb_false_iff; rewrite !Z.leb_gt; unfold space in S; lia).
    reflexivity.
Qed.

(** Text of an argument after a zero. *)
Lemma zero_first t sp co a0 x0 ty a v : t_base t = 0 \/ 2 <= t_base t <= 36 -> sp <> [] -> Forall space sp -> stands ty a v ->
  shows false t a0 x0 -> glued_right x0 = false -> render sp co x0 = [48] ->
  exists ls c rest, settles (fun n => write n (stack false t sp co false) [a0; a]) ls (48 :: c :: rest)
    /\ space c /\ Forall is_char rest.
Proof.
  intros B N F St S0 G0 R0.
  destruct (proj1 (stands_shown t B) _ _ _ St) as (x & Sh).
  destruct (proj1 (stands_reads t sp co N F B) _ _ _ St x Sh) as ((Gx & _) & C & _).
  destruct (shows_written false t sp co) as (_ & W).
  specialize (W [a0; a] [x0; x] ltac:(repeat constructor; assumption) false).
  assert (E : lead_all sp false [x0; x] ++ sentence sp co [x0; x] = 48 :: sp ++ render sp co x).
  { rewrite !sentence_cons, R0, G0. cbn [lead_all negb]. unfold lead. rewrite Gx. cbn [negb].
    change (sentence sp co []) with (@nil Z). rewrite !app_nil_r. destruct (glued_left x0); reflexivity. }
  rewrite E in W. destruct sp as [|c sp']; [easy|]. inversion_clear F as [|? ? Sc F'].
  eexists _, c, (sp' ++ render (c :: sp') co x). split; [exact W|]. split; [exact Sc|].
  apply Forall_app. split; [|exact C]. eapply Forall_impl; [exact space_char|exact F'].
Qed.

(** Finding: a zero that is not at the end is read as another number. *)
Theorem C107_zero_refuted : forall t sp co w sg ty a v,
  t_base t = 0 \/ 2 <= t_base t <= 36 -> getf t flag_showpos = false -> sp <> [] -> Forall space sp -> 8 <= w <= 64 -> stands ty a v ->
  exists ls out m z, settles (fun n => write n (stack false t sp co false) [AInt w sg 0; a]) ls out
    /\ read_args t [TInt w sg] (mem_open out) = Ok (m, Some (VList [VInt z])) /\ z <> 0.
Proof.
  intros t sp co w sg ty a v B P N F W St.
  assert (I : in_ity (int_type w sg) 0).
  { pose proof (pow2_ge w ltac:(lia)). unfold in_ity, ilow, ihigh, int_type. cbn [bits sgn].
    destruct sg; [|lia]. pose proof (Z.pow_pos_nonneg 2 (w - 1)). lia. }
  destruct (int_encode_spec w sg (int_fmt t) 0 W B I) as (ds & E & _).
  pose proof (encode_zero w sg (int_fmt t) _ W B ltac:(cbn [f_showpos int_fmt]; rewrite P; apply andb_false_r) E) as Z0.
  rewrite Z0 in E.
  destruct (zero_first t sp co (AInt w sg 0) (Word [48]) ty a v B N F St (shows_int _ _ _ _ _ _ E) eq_refl eq_refl) as (ls & c & rest & Wr & Sc & Fr).
  destruct (zero_then_space w sg (t_base t) c rest ltac:(lia) Sc Fr B) as (z & R & Nz & _).
  exists ls, (48 :: c :: rest), (mem_tape ([48], c :: rest)), z. split; [exact Wr|]. split; [|exact Nz].
  unfold read_args. rewrite read_tuple. cbn [read_list read_arg]. rewrite mem_open_tape.
  pose proof (skip_space_tape [] [] (48 :: c :: rest) (Forall_nil _) eq_refl) as Sk. cbn [app] in Sk. rewrite Sk. cbn [bind].
  pose proof (execute_tape (int_read w sg (t_base t)) VInt [] [48] (c :: rest) z ltac:(discriminate) R) as Ex.
  cbn [app] in Ex. rewrite Ex. reflexivity.
Qed.
Print Assumptions C107_zero_refuted.

(** Finding: an empty vector that is not at the end is read with a size close to 2^64;
    the container throws. *)
Theorem C107_empty_refuted : forall t sp co assoc ty elem a v,
  t_base t = 0 \/ 2 <= t_base t <= 36 -> sp <> [] -> Forall space sp -> stands ty a v ->
  exists ls out, settles (fun n => write n (stack false t sp co false) [ASeq assoc true []; a]) ls out
    /\ read_args t [TVector elem; ty] (mem_open out) = Throw.
Proof.
  intros t sp co assoc ty elem a v B N F St.
  assert (I : in_ity (int_type 64 false) 0) by (unfold in_ity, ilow, ihigh, int_type; cbn; lia).
  destruct (int_encode_spec 64 false (int_fmt t) 0 ltac:(lia) B I) as (ds & E & _).
  pose proof (encode_zero 64 false (int_fmt t) _ ltac:(lia) B eq_refl E) as Z0. rewrite Z0 in E.
  assert (Sh : shows false t (ASeq assoc true []) (Group [] [Group [] [Word [48]] []] [])).
  { replace (Group [] [Group [] [Word [48]] []] []) with
      (Group (brace false (if assoc then 123 else 91)) [Group [] [Word [48]] []] (brace false (if assoc then 125 else 93)))
      by reflexivity.
    eapply shows_seq; [constructor|]. exists [48]. split; [exact E|reflexivity]. }
  destruct (zero_first t sp co _ _ ty a v B N F St Sh eq_refl eq_refl) as (ls & c & rest & Wr & Sc & Fr).
  destruct (zero_then_space 64 false (t_base t) c rest ltac:(lia) Sc Fr B) as (z & R & _ & k & K & V).
  exists ls, (48 :: c :: rest). split; [exact Wr|].
  unfold read_args. rewrite read_tuple. cbn [read_list]. rewrite mem_open_tape, read_vector.
  pose proof (skip_space_tape [] [] (48 :: c :: rest) (Forall_nil _) eq_refl) as Sk. cbn [app] in Sk. rewrite Sk. cbn [bind].
  pose proof (execute_tape (int_read 64 false (t_base t)) VInt [] [48] (c :: rest) z ltac:(discriminate) R) as Ex.
  cbn [app] in Ex. rewrite Ex. cbn [bind].
  assert (Hz : z = 2 ^ 64 - k).
  { rewrite V. unfold wrap, ilow. cbn [bits sgn int_type]. rewrite Z.sub_0_r, Z.add_0_r. symmetry. apply (Z.mod_unique_pos _ _ (-1)); lia. }
  replace (2 ^ 63 <=? z) with true by (symmetry; apply Z.leb_le; lia). reflexivity.
Qed.
Print Assumptions C107_empty_refuted.

(** "0 5" is read as -16 and 5; an empty vector and 5 cannot be read. *)
Example C107_findings :
  omap snd (write 20 (stack false plain_text [32] [58] false) [AInt 32 true 0; AInt 32 true 5]) = Ok [48; 32; 53]
  /\ omap snd (read_args plain_text [TInt 32 true; TInt 32 true] (mem_open [48; 32; 53])) = Ok (Some (VList [VInt (-16); VInt 5]))
  /\ omap snd (write 20 (stack false plain_text [32] [58] false) [ASeq false true []; AInt 32 true 5]) = Ok [48; 32; 53]
  /\ read_args plain_text [TVector (TInt 32 true); TInt 32 true] (mem_open [48; 32; 53]) = Throw.
Proof. repeat split; vm_compute; reflexivity. Qed.
