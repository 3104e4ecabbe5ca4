(** C134: iterators over devices. *)
From Coq Require Import ZArith List Bool Lia.
From Verif Require Import Outcome IntTypes StringModel IntTextModel IntTextProofs FloatTextModel FloatTextProofs
  FormatModel FormatProofs DeviceModel DeviceProofs BufferProofs BinaryModel BinaryProofs PropBinary
  ReadModel ReadProofs PropIntText PropRead DevIterModel DevIterProofs.
Import ListNotations.
Local Open Scope Z_scope.

(** An iterator that has reached the end: it must not be incremented. *)
Definition exhausted {D T} (read : D -> T -> outcome (D * option T)) (it : input_iterator T) : Prop :=
  forall d old, ii_next read d old it = AssertFail.

(** It has no value, so that it must not be dereferenced either; every other iterator has one. *)
Theorem C134_value : forall D T (read : D -> T -> outcome (D * option T)) d old it d1 it1,
  (forall d old, read d old <> AssertFail) -> ii_next read d old it = Ok (d1, it1) ->
  (exhausted read it1 -> ii_deref it1 = UB) /\ (~ exhausted read it1 -> exists v, ii_deref it1 = Ok v).
Proof.
  intros D T read d old it d1 it1 NA. unfold ii_next. destruct (ii_open it); [|discriminate]. cbn [assert_then].
  destruct (read d _) as [[d2 [v|]]| | | |]; cbn [bind]; try discriminate; intros [= <- <-]; split; intros X; try reflexivity.
  - specialize (X d2 old). unfold ii_next in X. cbn [ii_open assert_then ii_value] in X.
    pose proof (NA d2 v) as N. destruct (read d2 v) as [[d3 w]| | | |]; try discriminate X. now elim N.
  - now exists v.
  - exfalso. apply X. intros ? ?. reflexivity.
Qed.
Print Assumptions C134_value.

(** ** Binary devices *)
Notation bvalue := BinaryModel.value.

Lemma binary_succeeds lt big t : asymmetric lt -> overwriting t -> forall vs old rest, shaped t old -> Forall (has_ty lt t) vs ->
  exists y, succeeds (binary_read lt big t) (out_binary big t vs ++ rest) old vs rest y /\ shaped t y.
Proof.
  intros A O. induction vs as [|v vs IH]; intros old rest S F.
  - exists old. split; [constructor|exact S].
  - inversion_clear F as [|? ? Hv F']. destruct (IH v rest (has_ty_shaped lt t v Hv) F') as (y & Y & Sy).
    exists y. split; [|exact Sy]. econstructor; [|exact Y].
    unfold binary_read. cbn [out_binary]. rewrite <- app_assoc, (get_put lt A) by assumption.
    now rewrite merge_overwriting.
Qed.

Lemma binary_ends lt big t y v p q : asymmetric lt -> shaped t y -> has_ty lt t v -> put_value big t v = p ++ q -> q <> [] ->
  binary_read lt big t p y = Ok ([], None).
Proof.
  intros A S Hv E Q. unfold binary_read. destruct (get_value lt big t y p) as [[w r]|] eqn:G; [|reflexivity].
  apply (get_ext _ _ _ _ _ _ _ q) in G. rewrite <- E in G.
  assert (K := get_put lt A big t y v [] S Hv). rewrite app_nil_r, G in K.
  assert (K2 : r ++ q = []) by congruence. now destruct (app_eq_nil _ _ K2).
Qed.

(** Values written through an output iterator are seen through an input iterator in
    the same order, and the device is then where the next data begin: one value is
    read by the constructor and one by every increment.  When the input ends there, or in
    the middle of a value, the next increment is the last one. *)
Theorem C134_binary : forall lt big t old vs rest,
  asymmetric lt -> overwriting t -> shaped t old -> vs <> [] -> Forall (has_ty lt t) vs ->
  exists d it it1, ii_make (binary_read lt big t) (out_binary big t vs ++ rest) old = Ok (d, it)
    /\ ii_take (binary_read lt big t) (length vs) d old it = Ok (vs, (rest, it1))
    /\ forall v q, has_ty lt t v -> put_value big t v = rest ++ q -> q <> [] ->
         exists d2 it2, ii_next (binary_read lt big t) rest old it1 = Ok (d2, it2) /\ exhausted (binary_read lt big t) it2.
Proof.
  intros lt big t old vs rest A O S N F. destruct (binary_succeeds lt big t A O vs old rest S F) as (y & Y & Sy).
  destruct (make_take _ old vs _ _ _ N Y) as (d & it & M & K). exists d, it. eexists. split; [exact M|]. split; [exact K|].
  intros v q Hv E Q. exists [], {| ii_open := false; ii_value := None |}. split; [|intros ? ?; reflexivity].
  apply next_fails. now apply (binary_ends lt big t y v rest q).
Qed.
Print Assumptions C134_binary.

(** From a device with less than a value the constructor makes an exhausted iterator. *)
Theorem C134_binary_short : forall lt big t old v p q,
  asymmetric lt -> shaped t old -> has_ty lt t v -> put_value big t v = p ++ q -> q <> [] ->
  exists d it, ii_make (binary_read lt big t) p old = Ok (d, it) /\ exhausted (binary_read lt big t) it.
Proof.
  intros lt big t old v p q A S Hv E Q. exists [], {| ii_open := false; ii_value := None |}.
  split; [|intros ? ?; reflexivity]. apply make_fails. now apply (binary_ends lt big t old v p q).
Qed.
Print Assumptions C134_binary_short.

Lemma lists_succeed lt big t : asymmetric lt -> forall ls old rest, Forall (fun l => has_ty lt (TList t) (VNode l)) ls ->
  exists vs y, succeeds (binary_read lt big (TList t)) (out_binary big (TList t) (map VNode ls) ++ rest) (VNode old) vs rest y
    /\ length vs = length ls
    /\ forall k, (k < length ls)%nat -> nth_error vs k = Some (VNode (old ++ concat (firstn (S k) ls))).
Proof.
  intros A. induction ls as [|l ls IH]; intros old rest F.
  - exists [], (VNode old). split; [constructor|]. split; [reflexivity|]. cbn. lia.
  - inversion_clear F as [|? ? Hl F']. destruct (IH (old ++ l) rest F') as (vs & y & Y & L & K).
    exists (VNode (old ++ l) :: vs), y. split; [|split].
    + econstructor; [|exact Y]. unfold binary_read. cbn [map out_binary]. rewrite <- app_assoc.
      now rewrite C29_list_keeps_old.
    + cbn. now rewrite L.
    + intros [|k] Hk.
      * cbn. now rewrite app_nil_r.
      * cbn [nth_error length] in *. rewrite K by lia. rewrite <- app_assoc. reflexivity.
Qed.

(** Finding: the object of the iterator is not cleared between reads, so that lists
    accumulate: the k-th list seen is the concatenation of the first k lists. *)
Theorem C134_lists_refuted : forall lt big t ls rest,
  asymmetric lt -> ls <> [] -> Forall (fun l => has_ty lt (TList t) (VNode l)) ls ->
  exists d it it1 vs,
    ii_make (binary_read lt big (TList t)) (out_binary big (TList t) (map VNode ls) ++ rest) (default (TList t)) = Ok (d, it)
    /\ ii_take (binary_read lt big (TList t)) (length ls) d (default (TList t)) it = Ok (vs, (rest, it1))
    /\ forall k, (k < length ls)%nat -> nth_error vs k = Some (VNode (concat (firstn (S k) ls))).
Proof.
  intros lt big t ls rest A N F. destruct (lists_succeed lt big t A ls [] rest F) as (vs & y & Y & L & K).
  assert (Nv : vs <> []) by (intros ->; destruct ls; [easy|discriminate]).
  destruct (make_take _ (VNode []) vs _ _ _ Nv Y) as (d & it & M & T).
  exists d, it. do 2 eexists. split; [exact M|]. split; [rewrite <- L; exact T|exact K].
Qed.
Print Assumptions C134_lists_refuted.

(** ** Text with white space skipped *)
(** Types without strings, whose objects keep nothing between reads. *)
Definition string_free (ty : rtype) : Prop := match ty with TStr _ => False | _ => True end.

(** Types that cannot be read from an empty input. *)
Fixpoint demanding (ty : rtype) : Prop :=
  match ty with
  | TInt _ _ | TBool | TChar | TVector _ => True
  | TTuple (ty :: _) | TArray (S _) ty => demanding ty
  | _ => False
  end.

Lemma demanding_fails t c ws ty : Forall space ws -> demanding ty ->
  exists m, read_arg t ty (mem_tape (c, ws)) = Ok (m, None).
Proof.
  intros F.
  assert (Sk : skip_space (mem_tape (c, ws)) = Ok (mem_tape (c ++ ws, []))).
  { rewrite <- (app_nil_r ws) at 1. now apply skip_space_tape. }
  revert ty. fix IH 1. intros ty Dm. destruct ty as [w sg| | |n|[|ty l]|[|n] ty|ty]; try contradiction; cbn [demanding] in Dm.
  - cbn [read_arg]. rewrite Sk. cbn [bind]. rewrite execute_empty by reflexivity. eauto.
  - cbn [read_arg]. rewrite Sk. cbn [bind]. rewrite execute_empty by reflexivity. eauto.
  - cbn [read_arg]. rewrite Sk. cbn [bind]. unfold mem_get. eexists. unfold mem_eof, mem_end.
    cbn [m_data m_ptr mem_tape fst snd]. rewrite app_nil_r.
    destruct (Z.ltb_spec (lenZ (c ++ ws)) (lenZ (c ++ ws) + 1)); [reflexivity|lia].
  - destruct (IH ty Dm) as (m & E). exists m. rewrite read_tuple. cbn [read_list]. rewrite E. reflexivity.
  - destruct (IH ty Dm) as (m & E). exists m. rewrite read_array. cbn [repeat read_list]. rewrite E. reflexivity.
  - cbn [read_arg]. rewrite Sk. cbn [bind]. rewrite execute_empty by reflexivity. cbn [bind]. eauto.
Qed.

Lemma list_succeeds cap t ty : string_free ty -> forall n m m1 vs old,
  read_list t (repeat ty n) m = Ok (m1, Some vs) ->
  length vs = n /\ exists y, succeeds (text_read cap t ty) m old vs m1 y.
Proof.
  intro S. assert (R : forall m x, text_read cap t ty m x = read_arg t ty m) by (destruct ty; easy).
  induction n as [|n IH]; intros m m1 vs old E; cbn [repeat read_list] in E.
  - injection E as <- <-. split; [reflexivity|]. eexists. constructor.
  - destruct (read_arg t ty m) as [[m0 [v|]]| | | |] eqn:E0; try discriminate E. cbn [bind] in E. unfold omap in E.
    destruct (read_list t (repeat ty n) m0) as [[m2 [l|]]| | | |] eqn:E1; try discriminate E. cbn in E.
    injection E as <- <-. destruct (IH _ _ _ v E1) as (L & y & Y). split; [cbn; congruence|].
    exists y. econstructor; [|exact Y]. now rewrite R.
Qed.

Lemma out_text_write fuel : forall args ls, out_text fuel ls args = write fuel ls args.
Proof.
  induction args as [|a args IH]; intro ls; [reflexivity|]. cbn [out_text]. unfold write. cbn [each].
  destruct (write_impl fuel 0 ls a) as [[ls1 s1]| | | |]; try reflexivity. cbn [bind ret].
  rewrite IH, app_nil_r. unfold write. destruct (each _ ls1 args) as [[ls2 s2]| | | |]; reflexivity.
Qed.

Lemma text_iterates cap t ty old n m c ws vs : (0 < n)%nat -> string_free ty ->
  read_list t (repeat ty n) m = Ok (mem_tape (c, ws), Some vs) -> Forall space ws ->
  exists d it it1, ii_make (text_read cap t ty) m old = Ok (d, it)
    /\ ii_take (text_read cap t ty) n d old it = Ok (vs, (mem_tape (c, ws), it1))
    /\ (demanding ty -> exists d2 it2, ii_next (text_read cap t ty) (mem_tape (c, ws)) old it1 = Ok (d2, it2)
                                       /\ exhausted (text_read cap t ty) it2).
Proof.
  intros P S E F. destruct (list_succeeds cap t ty S n _ _ _ old E) as (L & y & Y).
  assert (N : vs <> []) by (intros ->; cbn in L; lia).
  destruct (make_take _ old vs _ _ _ N Y) as (d & it & M & T). rewrite L in T.
  exists d, it. eexists. split; [exact M|]. split; [exact T|]. intro Dm.
  destruct (demanding_fails t c ws ty F Dm) as (m2 & E2). exists m2, {| ii_open := false; ii_value := None |}.
  split; [|intros ? ?; reflexivity]. apply next_fails. rewrite <- E2. now destruct ty.
Qed.

(** Values that survive reading (C107), written one by one through an output iterator to a
    device with a format that separates them: the text is the same as when they are
    written at once; the input iterator gives them back and ends. *)
Theorem C134_text : forall cap t sp co ty old args vs,
  t_base t = 0 \/ 2 <= t_base t <= 36 -> sp <> [] -> Forall space sp -> string_free ty ->
  args <> [] -> stands_all (repeat ty (length args)) args vs ->
  exists ls out, settles (fun n => out_text n (stack false t sp co false) args) ls out
    /\ settles (fun n => write n (stack false t sp co false) args) ls out
    /\ exists d it m it1, ii_make (text_read cap t ty) (mem_open out) old = Ok (d, it)
         /\ ii_take (text_read cap t ty) (length args) d old it = Ok (vs, (m, it1))
         /\ Forall space (mem_input m)
         /\ (demanding ty -> exists d2 it2, ii_next (text_read cap t ty) m old it1 = Ok (d2, it2)
                                            /\ exhausted (text_read cap t ty) it2).
Proof.
  intros cap t sp co ty old args vs B N F S Na St.
  destruct (proj2 (stands_shown t B) _ _ _ St) as (its & Sh).
  destruct (shows_written false t sp co) as (_ & W). specialize (W args its Sh false).
  replace (lead_all sp false its) with (@nil Z) in W by (destruct its; reflexivity). cbn [app] in W.
  destruct (proj2 (stands_reads t sp co N F B) _ _ _ St its Sh) as (_ & _ & T).
  destruct (T [] [] [] (Forall_nil _) I (Forall_nil _)) as (c & ws & E & _ & Fw). cbn [app] in E. rewrite !app_nil_r in E.
  do 2 eexists. split.
  { destruct W as (k & W). exists k. intros n L. rewrite out_text_write. exact (W n L). }
  split; [exact W|]. rewrite mem_open_tape.
  destruct (text_iterates cap t ty old (length args) _ _ _ _ ltac:(destruct args; [easy|cbn; lia]) S E Fw) as (d & it & it1 & M & K & Z1).
  exists d, it, (mem_tape (c, ws)), it1. repeat split; try assumption. rewrite mem_input_tape. exact Fw.
Qed.
Print Assumptions C134_text.

(** The same for words laid out with any white space. *)
Theorem C134_layout : forall cap t ty old n vs s,
  t_base t = 0 \/ 2 <= t_base t <= 36 -> string_free ty -> (0 < n)%nat -> layout t (repeat ty n) vs s ->
  exists d it m it1, ii_make (text_read cap t ty) (mem_open s) old = Ok (d, it)
    /\ ii_take (text_read cap t ty) n d old it = Ok (vs, (m, it1))
    /\ (demanding ty -> exists d2 it2, ii_next (text_read cap t ty) m old it1 = Ok (d2, it2)
                                       /\ exhausted (text_read cap t ty) it2).
Proof.
  intros cap t ty old n vs s B S P L. destruct (layout_reads t _ vs s B L) as (_ & R).
  destruct (R [] [] (Forall_nil _)) as (c & ws & E & _ & F). cbn [app] in E. rewrite mem_open_tape.
  destruct (text_iterates cap t ty old n _ _ _ _ P S E F) as (d & it & it1 & M & K & Z1).
  exists d, it, (mem_tape (c, ws)), it1. repeat split; assumption.
Qed.
Print Assumptions C134_layout.

(** ** Strings *)
Lemma words_succeed cap t : t_base t = 0 \/ 2 <= t_base t <= 36 -> forall n vs s, layout t (repeat (TStr 0) n) vs s ->
  forall a ws0 old, Forall space ws0 ->
  exists c ws y, succeeds (text_read cap t (TStr 0)) (mem_tape (a, ws0 ++ s)) old vs (mem_tape (c, ws)) y
    /\ Forall space ws /\ length vs = n.
Proof.
  intros B. induction n as [|n IH]; intros vs s L a ws0 old F0; cbn [repeat] in L; inversion L as [ws F|ws ty b w v ts vs' rest F St Sh D L']; subst.
  - exists a, (ws0 ++ s), old. split; [constructor|]. split; [now apply Forall_app|reflexivity].
  - inversion St as [| | |? w' Nw Gw| | |]; subst. inversion Sh; subst.
    destruct (IH vs' rest L' ((a ++ ws0 ++ ws) ++ w) [] (VStr w) (Forall_nil _)) as (c & ws' & y & Y & Fw & Lv).
    exists c, ws', y. split; [|split; [exact Fw|cbn; congruence]].
    econstructor; [|cbn [app] in Y; exact Y]. unfold text_read. cbn [read_arg].
    rewrite app_assoc, skip_space_tape.
    + cbn [bind]. rewrite read_string_tape by assumption. reflexivity.
    + now apply Forall_app.
    + destruct w as [|x w]; [easy|]. inversion_clear Gw. now apply graphic_is.
Qed.

Lemma empty_string cap t c ws old : Forall space ws ->
  text_read cap t (TStr 0) (mem_tape (c, ws)) old = Ok (mem_tape (c ++ ws, []), Some (VStr [])).
Proof.
  intro F. unfold text_read. cbn [read_arg]. rewrite <- (app_nil_r ws) at 1. rewrite skip_space_tape by easy. cbn [bind].
  pose proof (read_string_tape (cap old) (c ++ ws) [] [] (Forall_nil _) I) as R. cbn [app] in R. rewrite app_nil_r in R.
  rewrite R. reflexivity.
Qed.

Lemma succeeds_app {D T} (read : D -> T -> outcome (D * option T)) d x l d1 y l' d2 z :
  succeeds read d x l d1 y -> succeeds read d1 y l' d2 z -> succeeds read d x (l ++ l') d2 z.
Proof. induction 1; intro H'; [exact H'|]. cbn. econstructor; eauto. Qed.

(** Finding: reading a string never fails, so that an iterator over strings gives the words
    of the text and then empty strings for ever; it never becomes exhausted. *)
Theorem C134_strings_refuted : forall cap t old n vs s k,
  t_base t = 0 \/ 2 <= t_base t <= 36 -> layout t (repeat (TStr 0) n) vs s -> (0 < n + k)%nat ->
  exists d it m it1, ii_make (text_read cap t (TStr 0)) (mem_open s) old = Ok (d, it)
    /\ ii_take (text_read cap t (TStr 0)) (n + k) d old it = Ok (vs ++ repeat (VStr []) k, (m, it1))
    /\ ~ exhausted (text_read cap t (TStr 0)) it1.
Proof.
  intros cap t old n vs s k B L P.
  destruct (words_succeed cap t B n vs s L [] [] old (Forall_nil _)) as (c & ws & y & Y & F & Lv). cbn [app] in Y.
  assert (R : forall k c ws y, Forall space ws -> exists c' ws' z, Forall space ws'
             /\ succeeds (text_read cap t (TStr 0)) (mem_tape (c, ws)) y (repeat (VStr []) k) (mem_tape (c', ws')) z).
  { clear. induction k as [|k IH]; intros c ws y F; cbn [repeat].
    - exists c, ws, y. split; [exact F|constructor].
    - destruct (IH (c ++ ws) [] (VStr []) (Forall_nil _)) as (c' & ws' & z & F' & H). exists c', ws', z. split; [exact F'|].
      econstructor; [now apply empty_string|exact H]. }
  destruct (R k c ws y F) as (c' & ws' & z & F' & H). pose proof (succeeds_app _ _ _ _ _ _ _ _ _ Y H) as A.
  destruct (make_take _ old (vs ++ repeat (VStr []) k) _ _ _ ltac:(intro E; apply (f_equal (@length _)) in E; rewrite app_length, repeat_length in E; cbn in E; lia) A) as (d & it & M & T).
  rewrite app_length, repeat_length, Lv in T. rewrite mem_open_tape.
  exists d, it. do 2 eexists. split; [exact M|]. split; [exact T|].
  intro E. specialize (E (mem_tape (c', ws')) old). unfold ii_next in E. cbn [ii_open ii_value assert_then] in E.
  rewrite empty_string in E by exact F'. discriminate E.
Qed.
Print Assumptions C134_strings_refuted.

(** ** Text devices without a format of their own *)
Lemma space_fails w sg c rest : int_read w sg 10 [32 :: rest] = Ok (0%nat, None) ->
  execute (int_read w sg 10) VInt (mem_tape (c, 32 :: rest)) = Ok (mem_tape (c, 32 :: rest), None).
Proof.
  intro E. unfold execute. rewrite mem_input_tape. cbn [snd]. rewrite E. cbn [bind].
  pose proof (mem_move_tape c [] (32 :: rest)) as M. cbn [app] in M. rewrite app_nil_r in M.
  change (lenZ []) with (Z.of_nat 0) in M. rewrite M. reflexivity.
Qed.

(** Finding: the deduced format skips nothing, so that the iterator over integers ends at
    the first space, whatever follows. *)
Theorem C134_space_refuted : forall w sg x rest old,
  8 <= w <= 64 -> in_ity (int_type w sg) x -> x <> 0 -> Forall is_char rest ->
  exists s d it d2 it2, int_encode w sg (int_fmt plain_text) x = Ok s
    /\ ii_make (plain_read w sg) (mem_open (s ++ 32 :: rest)) old = Ok (d, it)
    /\ ii_deref it = Ok (VInt x)
    /\ ii_next (plain_read w sg) d old it = Ok (d2, it2)
    /\ exhausted (plain_read w sg) it2 /\ mem_input d2 = 32 :: rest.
Proof.
  intros w sg x rest old W I N F.
  destruct (int_encode_spec w sg (int_fmt plain_text) x W ltac:(cbn; lia) I) as (ds & E & _).
  match type of E with _ = Ok ?s0 => set (s := s0) in * end.
  destruct (encode_graphic w sg (int_fmt plain_text) x s W ltac:(cbn; lia) I E) as (G & Ns).
  assert (C : Forall is_char (32 :: rest)) by (constructor; [unfold is_char; lia|exact F]).
  assert (R : int_read w sg 10 [s ++ 32 :: rest] = Ok (length s, Some x)).
  { apply (C18_round_trip w sg (int_fmt plain_text)); try assumption; [cbn; lia| |now left].
    apply stops_delimited; [cbn; lia|]. cbn. unfold space. lia. }
  pose proof (execute_tape (int_read w sg 10) VInt [] s (32 :: rest) x Ns R) as X. cbn [app] in X.
  exists s. do 4 eexists. split; [exact E|]. split; [|split; [|split; [|split]]].
  - rewrite mem_open_tape. unfold ii_make, ii_next. cbn [ii_open assert_then ii_value]. unfold plain_read. rewrite X. reflexivity.
  - reflexivity.
  - apply next_fails. unfold plain_read. apply space_fails.
    pose proof (C19_parse_exact w sg 10 (32 :: rest) ltac:(lia) C ltac:(lia)) as P.
    assert (Sg : sign_of sg (32 :: rest) = (false, 0%nat)) by (destruct sg; reflexivity). rewrite Sg in P. cbn [snd skipn] in P.
    exact (P ltac:(discriminate)).
  - intros ? ?. reflexivity.
  - rewrite mem_input_tape. reflexivity.
Qed.
Print Assumptions C134_space_refuted.

(** Finding: it writes no separators either: 1 and 2 written through an output iterator
    are seen as the single number 12. *)
Theorem C134_merged_refuted : exists out d it,
  omap snd (out_text 20 [LText plain_text] [AInt 32 true 1; AInt 32 true 2]) = Ok out
  /\ ii_make (plain_read 32 true) (mem_open out) (VInt 0) = Ok (d, it)
  /\ ii_deref it = Ok (VInt 12) /\ mem_input d = [].
Proof.
  eexists. do 2 eexists. split; [vm_compute; reflexivity|]. split; [vm_compute; reflexivity|].
  split; vm_compute; reflexivity.
Qed.
Print Assumptions C134_merged_refuted.

(** Three pairs of binary integers, the last one cut; integers "7 -2  40", and two words. *)
Example C134_case_value : exhausted (plain_read 32 true) {| ii_open := false; ii_value := None |} /\
  (forall s old, binary_read (fun _ _ => false) false (BinaryModel.TInt 1 false) s old <> AssertFail) /\
  omap (fun p => ii_deref (snd p)) (ii_make (binary_read (fun _ _ => false) false (BinaryModel.TInt 1 false)) [] (BinaryModel.VInt 0)) = Ok UB.
Proof. split; [intros ? ?; reflexivity|]. split; [discriminate|reflexivity]. Qed.
Example C134_case :
  let t := BinaryModel.TTuple [BinaryModel.TInt 2 true; BinaryModel.TInt 1 false] in
  let vs := [VNode [BinaryModel.VInt (-300); BinaryModel.VInt 255]; VNode [BinaryModel.VInt 5; BinaryModel.VInt 0]] in
  let r := binary_read less false t in
  overwriting t /\ shaped t (default t) /\ Forall (has_ty less t) vs
  /\ out_binary false t vs = [212; 254; 255; 5; 0; 0]
  /\ put_value false t (VNode [BinaryModel.VInt 9; BinaryModel.VInt 9]) = [9; 0] ++ [9]
  /\ (do (d, it) <- ii_make r [212; 254; 255; 5; 0; 0; 9; 0] (default t);
      do (l, (d, it)) <- ii_take r 2 d (default t) it;
      do (d', it') <- ii_next r d (default t) it; Ok (l, d, ii_open it, ii_open it')) = Ok (vs, [9; 0], true, false)
  /\ layout plain_text (repeat (TInt 32 true) 3) [VInt 7; VInt (-2); VInt 40] [55; 32; 45; 50; 32; 32; 52; 48]
  /\ (do (d, it) <- ii_make (text_read (fun _ => 0%nat) plain_text (TInt 32 true)) (mem_open [55; 32; 45; 50; 32; 32; 52; 48]) (VInt 0);
      omap fst (ii_take (text_read (fun _ => 0%nat) plain_text (TInt 32 true)) 3 d (VInt 0) it)) = Ok [VInt 7; VInt (-2); VInt 40]
  /\ (do (d, it) <- ii_make (text_read (fun _ => 0%nat) plain_text (TStr 0)) (mem_open [97; 32; 98; 99]) (VStr []);
      omap fst (ii_take (text_read (fun _ => 0%nat) plain_text (TStr 0)) 4 d (VStr []) it))
     = Ok [VStr [97]; VStr [98; 99]; VStr []; VStr []].
Proof.
  cbv zeta. split; [cbn; auto|]. split; [cbn; auto|]. split; [cbn; repeat constructor; cbn; lia|].
  split; [reflexivity|]. split; [reflexivity|]. split; [vm_compute; reflexivity|].
  split; [|split; vm_compute; reflexivity].
  assert (W : forall x, - 1000 <= x <= 1000 -> x <> 0 -> stands (TInt 32 true) (AInt 32 true x) (VInt x)).
  { intros x X N. constructor; [lia| |exact N]. unfold in_ity, ilow, ihigh, int_type. cbn [bits sgn].
    change (2 ^ (32 - 1)) with 2147483648. lia. }
  change [55; 32; 45; 50; 32; 32; 52; 48] with ([] ++ [55] ++ ([32] ++ [45; 50] ++ ([32; 32] ++ [52; 48] ++ []))).
  assert (Sp : space 32) by (unfold space; lia).
  eapply layout_cons; [constructor|apply W; lia|apply shows_int; vm_compute; reflexivity|exact Sp|].
  eapply layout_cons; [repeat constructor; exact Sp|apply W; lia|apply shows_int; vm_compute; reflexivity|exact Sp|].
  eapply layout_cons; [repeat constructor; exact Sp|apply W; lia|apply shows_int; vm_compute; reflexivity|exact I|].
  constructor. constructor.
Qed.
