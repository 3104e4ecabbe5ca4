(** Reading back structured data from spaced text. *)
From Coq Require Import ZArith List Bool Lia.
From Verif Require Import Outcome IntTypes StringModel IntTextModel IntTextProofs FloatTextModel FloatTextProofs
  FormatModel FormatProofs DeviceModel DeviceProofs BufferProofs ReadModel.
Import ListNotations.
Local Open Scope Z_scope.

(** ** Specification *)
(** White space characters. *)
Definition space (c : Z) : Prop := c = 32 \/ 9 <= c <= 13.
(** A character which can be a part of a word. *)
Definition graphic (c : Z) : Prop := is_char c /\ ~ space c.
(** The text ends, or goes on with a white space. *)
Definition delimited (rest : list Z) : Prop := match rest with [] => True | c :: _ => space c end.

(** [stands ty a v]: the argument [a] of write holds the value [v] of type [ty] that
    survives reading: no zeros, no empty vectors, strings that are words. *)
Inductive stands : rtype -> arg -> value -> Prop :=
| stands_int w sg x : 8 <= w <= 64 -> in_ity (int_type w sg) x -> x <> 0 -> stands (TInt w sg) (AInt w sg x) (VInt x)
| stands_bool b : stands TBool (ABool b) (VBool b)
| stands_char c : graphic c -> stands TChar (AChar c) (VChar c)
| stands_str n s : s <> [] -> Forall graphic s -> stands (TStr n) (AStr s) (VStr s)
| stands_tuple ts l vs : stands_all ts l vs -> stands (TTuple ts) (ATuple l) (VList vs)
| stands_array ty assoc l vs : stands_all (repeat ty (length l)) l vs ->
    stands (TArray (length l) ty) (ASeq assoc false l) (VList vs)
| stands_vector ty assoc l vs : l <> [] -> Z.of_nat (length l) < 2 ^ 63 -> stands_all (repeat ty (length l)) l vs ->
    stands (TVector ty) (ASeq assoc true l) (VList vs)
with stands_all : list rtype -> list arg -> list value -> Prop :=
| stands_nil : stands_all [] [] []
| stands_cons ty ts a l v vs : stands ty a v -> stands_all ts l vs -> stands_all (ty :: ts) (a :: l) (v :: vs).

Scheme stands_ind2 := Induction for stands Sort Prop
  with stands_all_ind2 := Induction for stands_all Sort Prop.
Combined Scheme stands_both from stands_ind2, stands_all_ind2.

(** ** Characters *)
Lemma is_space_iff c : is_char c -> is_space c = true <-> space c.
Proof.
  intro C. unfold is_space, space. rewrite (mod256_class c 9 5 C) by lia.
  rewrite orb_true_iff, andb_true_iff, Z.leb_le, Z.ltb_lt, Z.eqb_eq. lia.
Qed.
Lemma space_is c : space c -> is_space c = true.
Proof. intro S. apply is_space_iff; [unfold space, is_char in *; lia|exact S]. Qed.
Lemma graphic_is c : graphic c -> is_space c = false.
Proof. intros (C & N). destruct (is_space c) eqn:E; [|reflexivity]. now apply is_space_iff in E. Qed.
Lemma space_char c : space c -> is_char c.
Proof. unfold space, is_char. lia. Qed.

Lemma encode_graphic w sg f x s : 8 <= w <= 64 -> f_base f = 0 \/ 2 <= f_base f <= 36 -> in_ity (int_type w sg) x ->
  int_encode w sg f x = Ok s -> Forall graphic s /\ s <> [].
Proof.
  intros W B X E. destruct (int_encode_spec w sg f x W B X) as (ds & E' & (Ev & Fd & Cn) & _).
  rewrite E' in E. injection E as <-.
  assert (Bb : 2 <= eff_base f <= 36). { unfold eff_base. destruct (Z.eqb_spec (f_base f) 0); lia. }
  assert (G : forall l, Forall (fun c => 33 <= c < 256) l -> Forall graphic l).
  { intros l. apply Forall_impl. intros c C. unfold graphic, is_char, space. lia. }
  split.
  - apply G. rewrite !Forall_app. split; [|split].
    + unfold sign_prefix. destruct (x <? 0); [repeat constructor; lia|]. destruct (_ && _); repeat constructor; lia.
    + unfold base_prefix. destruct (_ && _); [|constructor].
      destruct (_ =? 8); [repeat constructor; lia|]. destruct (_ =? 16); [|constructor].
      destruct (f_uppercase f); repeat constructor; lia.
    + apply Forall_map. eapply Forall_impl; [|exact Fd]. intros d D. cbn beta in D. unfold numeral_char.
      destruct (Z.ltb_spec d 10); [lia|]. destruct (f_uppercase f); lia.
  - intro H. apply app_eq_nil in H. destruct H as (_ & H). apply app_eq_nil in H. destruct H as (_ & H).
    apply map_eq_nil in H. subst ds. destruct Cn as [Cn|(d & tl & Cn & _)]; discriminate.
Qed.

(** ** Skipping, scalars and strings *)
Lemma skip_tape r : match r with [] => True | c :: _ => is_space c = false end -> forall ws a fuel,
  Forall space ws -> (length ws < fuel)%nat ->
  skip fuel (PFun is_space) (mem_tape (a, ws ++ r)) = Ok (mem_tape (a ++ ws, r)).
Proof.
  intros R. induction ws as [|c ws IH]; intros a fuel F L; (destruct fuel as [|fuel]; [cbn in L; lia|]); cbn [skip app].
  - rewrite mem_eof_tape. cbn [negb andb pred_eval]. rewrite app_nil_r.
    destruct r as [|c r]; [rewrite mem_peek_nil|rewrite mem_peek_cons, R]; reflexivity.
  - inversion_clear F as [|? ? Sc F']. rewrite mem_eof_tape, mem_peek_cons. cbn [negb andb pred_eval]. rewrite (space_is c Sc).
    change (c :: ws ++ r) with ([c] ++ (ws ++ r)).
    change 1 with (lenZ [c]). rewrite mem_move_tape. cbn [bind].
    rewrite IH by (try assumption; cbn in L; lia). now rewrite <- app_assoc.
Qed.

Lemma skip_space_tape a ws r : Forall space ws -> match r with [] => True | c :: _ => is_space c = false end ->
  skip_space (mem_tape (a, ws ++ r)) = Ok (mem_tape (a ++ ws, r)).
Proof.
  intros F R. unfold skip_space. apply skip_tape; [exact R|exact F|]. cbn [m_data mem_tape fst snd].
  rewrite !app_length. lia.
Qed.

Lemma execute_tape {A} (parse : list (list Z) -> outcome (nat * option A)) wrap a s rest v : s <> [] ->
  parse [s ++ rest] = Ok (length s, Some v) ->
  execute parse wrap (mem_tape (a, s ++ rest)) = Ok (mem_tape (a ++ s, rest), Some (wrap v)).
Proof.
  intros N P. unfold execute. rewrite mem_input_tape. cbn [snd].
  assert (Q : match s ++ rest with [] => [] | _ => [s ++ rest] end = [s ++ rest]) by (destruct s; [easy|reflexivity]).
  rewrite Q, P. cbn [bind]. change (Z.of_nat (length s)) with (lenZ s). rewrite mem_move_tape. reflexivity.
Qed.

Lemma free_word n s rest : Forall graphic s -> delimited rest ->
  free_prefix is_space n (s ++ rest) = firstn n s.
Proof.
  intros F D. revert n. induction F as [|c s G F IH]; intros [|n]; try reflexivity.
  - destruct rest as [|c rest]; [reflexivity|]. cbn in D. cbn. now rewrite (space_is c D).
  - cbn. rewrite (graphic_is c G). now rewrite <- IH.
Qed.

Lemma read_till_tape rest : delimited rest -> forall fuel s a stored size, Forall graphic s ->
  (0 < size)%nat -> (length s < fuel)%nat ->
  read_till_string fuel (PFun is_space) (mem_tape (a, s ++ rest)) stored size
  = Ok (mem_tape (a ++ s, rest), stored ++ s).
Proof.
  intro D. induction fuel as [|fuel IH]; intros s a stored size F P L; [lia|].
  cbn [read_till_string].
  destruct (till_buffered_spec (PFun is_space) a (s ++ rest) size) as (rest' & E & R).
  change (pred_eval (PFun is_space)) with is_space in *. rewrite (free_word size s rest F D) in *.
  assert (rest' = skipn size s ++ rest).
  { rewrite <- (firstn_skipn size s) in E at 1. rewrite <- app_assoc in E. now apply app_inv_head in E. }
  subst rest'. rewrite R. cbn [bind]. rewrite firstn_length.
  destruct (Nat.ltb_spec (Nat.min size (length s)) size) as [Lt|Ge].
  - rewrite firstn_all2, skipn_all2 by lia. reflexivity.
  - rewrite IH.
    + now rewrite <- !app_assoc, firstn_skipn.
    + apply Forall_forall. intros c C. rewrite Forall_forall in F. apply F. rewrite <- (firstn_skipn size s). apply in_or_app. now right.
    + lia.
    + rewrite skipn_length. lia.
Qed.

Lemma read_string_tape n a s rest : Forall graphic s -> delimited rest ->
  read_string n (mem_tape (a, s ++ rest)) = Ok (mem_tape (a ++ s, rest), s).
Proof.
  intros F D. unfold read_string. rewrite read_till_tape; try assumption; [reflexivity|lia|].
  cbn [m_data mem_tape fst snd]. rewrite !app_length. lia.
Qed.

Lemma stops_delimited b rest : b <= 36 -> delimited rest -> stops b rest.
Proof.
  intros B D. destruct rest as [|c rest]; [exact I|]. cbn in *. unfold digit_in, digit_of.
  replace ((48 <=? c) && (c <=? 57)) with false by (symmetry; apply andb_false_iff; rewrite !Z.leb_gt; unfold space in D; lia).
  replace ((65 <=? c) && (c <=? 90)) with false by (symmetry; apply andb_false_iff; rewrite !Z.leb_gt; unfold space in D; lia).
  replace ((97 <=? c) && (c <=? 122)) with false by (symmetry; apply andb_false_iff; rewrite !Z.leb_gt; unfold space in D; lia).
  reflexivity.
Qed.

Lemma bool_read_word alpha b rest : bool_read alpha [bool_encode alpha b ++ rest] = Ok (length (bool_encode alpha b), Some b).
Proof.
  assert (N : Forall (fun s : list Z => s <> []) [bool_encode alpha b ++ rest]).
  { constructor; [|constructor]. destruct alpha, b; discriminate. }
  destruct alpha.
  - rewrite (bool_read_alpha _ N). cbn [concat]. rewrite app_nil_r. destruct b; reflexivity.
  - rewrite (bool_read_digit _ N). cbn [concat]. rewrite app_nil_r. destruct b; reflexivity.
Qed.

(** ** Structured values *)
Section Structured.
Context (t : text).
Fixpoint read_list (l : list rtype) (m : memory) : outcome (memory * option (list value)) :=
  match l with
  | [] => Ok (m, Some [])
  | ty :: l => do (m1, v) <- read_arg t ty m;
               match v with None => Ok (m1, None) | Some v => omap (push v) (read_list l m1) end
  end.
Lemma read_tuple l m : read_arg t (TTuple l) m = omap as_list (read_list l m).
Proof. reflexivity. Qed.
Lemma read_loop ty n : forall m,
  (fix loop (n : nat) (m : memory) : outcome (memory * option (list value)) :=
      match n with
      | O => Ok (m, Some [])
      | S k => do (m1, v) <- read_arg t ty m;
               match v with None => Ok (m1, None) | Some v => omap (push v) (loop k m1) end
      end) n m = read_list (repeat ty n) m.
Proof.
  induction n as [|n IH]; intro m; [reflexivity|]. cbn [repeat read_list].
  destruct (read_arg t ty m) as [[m1 [v|]]| | | |]; cbn [bind]; [now rewrite IH|..]; reflexivity.
Qed.
Lemma read_array n ty m : read_arg t (TArray n ty) m = omap as_list (read_list (repeat ty n) m).
Proof. rewrite <- read_loop. reflexivity. Qed.
Lemma read_vector ty m : read_arg t (TVector ty) m =
  do m <- skip_space m;
  do (m1, v) <- execute (int_read 64 false (t_base t)) VInt m;
  match v with
  | Some (VInt n) => if 2 ^ 63 <=? n then Throw else omap as_list (read_list (repeat ty (Z.to_nat n)) m1)
  | _ => Ok (m1, None)
  end.
Proof.
  cbn [read_arg]. destruct (skip_space m) as [m0| | | |]; [|reflexivity..]. cbn [bind].
  destruct (execute _ _ _) as [[m1 [[]|]]| | | |]; try reflexivity. cbn [bind].
  destruct (_ <=? _); [reflexivity|]. now rewrite read_loop.
Qed.

Context (sp co : list Z).
Hypothesis Hsp : sp <> [].
Hypothesis Fsp : Forall space sp.
Hypothesis HB : t_base t = 0 \/ 2 <= t_base t <= 36.

(** Reading from [ws], the text and [rest] leaves white space and [rest]. *)
Definition takes {A} (f : memory -> outcome (memory * option A)) (s : list Z) (v : A) : Prop :=
  forall a ws rest, Forall space ws -> delimited rest -> Forall is_char rest ->
  exists c ws', f (mem_tape (a, ws ++ s ++ rest)) = Ok (mem_tape (a ++ c, ws' ++ rest), Some v)
    /\ c ++ ws' = ws ++ s /\ Forall space ws'.

Lemma takes_word {A} (g : memory -> outcome (memory * option A)) s v : s <> [] -> Forall graphic s ->
  (forall a rest, delimited rest -> Forall is_char rest ->
     g (mem_tape (a, s ++ rest)) = Ok (mem_tape (a ++ s, rest), Some v)) ->
  takes (fun m => do m <- skip_space m; g m) s v.
Proof.
  intros N G R a ws rest F D C. exists (ws ++ s), []. rewrite skip_space_tape.
  - cbn [bind]. rewrite R by assumption. now rewrite <- app_assoc, app_nil_r.
  - exact F.
  - destruct s as [|c s]; [easy|]. inversion_clear G. cbn. now apply graphic_is.
Qed.

Lemma graphic_chars s : Forall graphic s -> Forall is_char s.
Proof. apply Forall_impl. intros c (C & _). exact C. Qed.

Lemma takes_int w sg x s : 8 <= w <= 64 -> in_ity (int_type w sg) x -> x <> 0 -> int_encode w sg (int_fmt t) x = Ok s ->
  takes (fun m => do m <- skip_space m; execute (int_read w sg (t_base t)) VInt m) s (VInt x).
Proof.
  intros W I N E. destruct (encode_graphic w sg (int_fmt t) x s W HB I E) as (G & Ns).
  apply takes_word; [exact Ns|exact G|]. intros a rest D C. apply execute_tape; [exact Ns|].
  change (t_base t) with (f_base (int_fmt t)). apply round_trip; try assumption; [|now left].
  apply stops_delimited; [|exact D]. unfold eff_base. cbn [f_base int_fmt]. destruct (Z.eqb_spec (t_base t) 0); lia.
Qed.

Definition plain (x : item) : Prop := glued_left x = false /\ glued_right x = false.

Lemma takes_map {A B} (f : memory -> outcome (memory * option A)) (h : A -> B) (g : memory * option A -> memory * option B) s v :
  (forall m o, g (m, o) = (m, option_map h o)) -> takes f s v -> takes (fun m => omap g (f m)) s (h v).
Proof.
  intros G T a ws rest F D C. destruct (T a ws rest F D C) as (c & ws' & E & S).
  exists c, ws'. split; [|exact S]. rewrite E. cbn. now rewrite G.
Qed.

Lemma takes_ext {A} (f g : memory -> outcome (memory * option A)) s v : (forall m, f m = g m) -> takes g s v -> takes f s v.
Proof. intros E T a ws rest F D C. rewrite E. now apply T. Qed.

(** The text of the first item, the separator and the text of the others. *)
Lemma takes_cons f fl x its (v : value) (vs : list value) : plain x -> Forall plain its ->
  Forall is_char (sentence sp co its) ->
  takes f (render sp co x) v -> takes fl (sentence sp co its) vs ->
  takes (fun m => do (m1, v) <- f m; match v with None => Ok (m1, None) | Some v => omap (push v) (fl m1) end)
        (sentence sp co (x :: its)) (v :: vs).
Proof.
  intros (_ & Px) Fi Ci T Tl a ws rest F D C. rewrite sentence_cons, Px.
  destruct its as [|y its].
  - cbn [lead_all negb app]. change (sentence sp co []) with (@nil Z) in *. rewrite app_nil_r.
    destruct (T a ws rest F D C) as (c & ws' & E & S & Fw). rewrite E. cbn [bind].
    destruct (Tl (a ++ c) ws' rest Fw D C) as (c2 & ws2 & E2 & S2 & Fw2). cbn [app] in E2. rewrite E2.
    exists (c ++ c2), ws2. cbn. rewrite <- !app_assoc, S2, app_nil_r, S. auto.
  - inversion_clear Fi as [|? ? (Py & _) _].
    replace (lead_all sp (negb false) (y :: its)) with sp by (cbn [lead_all]; unfold lead; rewrite Py; reflexivity).
    set (r := sentence sp co (y :: its)) in *.
    assert (D1 : delimited (sp ++ r ++ rest)).
    { destruct sp as [|c sp']; [easy|]. inversion_clear Fsp. assumption. }
    assert (C1 : Forall is_char (sp ++ r ++ rest)).
    { rewrite !Forall_app. split; [|now split]. eapply Forall_impl; [|exact Fsp]. exact space_char. }
    destruct (T a ws (sp ++ r ++ rest) F D1 C1) as (c & ws' & E & S & Fw).
    replace (ws ++ (render sp co x ++ sp ++ r) ++ rest) with (ws ++ render sp co x ++ sp ++ r ++ rest) by now rewrite <- !app_assoc.
    rewrite E. cbn [bind].
    destruct (Tl (a ++ c) (ws' ++ sp) rest) as (c2 & ws2 & E2 & S2 & Fw2); try assumption.
    { apply Forall_app. now split. }
    rewrite <- app_assoc in E2. rewrite E2. exists (c ++ c2), ws2. cbn. rewrite <- !app_assoc, S2.
    split; [reflexivity|]. split; [|exact Fw2]. rewrite <- app_assoc. rewrite !app_assoc, S. now rewrite <- !app_assoc.
Qed.

Lemma sentence_chars x its : plain x -> Forall plain its -> Forall is_char (render sp co x) -> Forall is_char (sentence sp co its) ->
  Forall is_char (sentence sp co (x :: its)).
Proof.
  intros (_ & Px) Fi Cx Ci. rewrite sentence_cons, Px. rewrite !Forall_app. split; [exact Cx|]. split; [|exact Ci].
  destruct its as [|y its]; [constructor|]. cbn [lead_all]. unfold lead. destruct (glued_left y); [constructor|].
  cbn [negb]. eapply Forall_impl; [|exact Fsp]. exact space_char.
Qed.

Opaque int_encode.
Lemma stands_reads :
  (forall ty a v, stands ty a v -> forall x, shows false t a x ->
     plain x /\ Forall is_char (render sp co x) /\ takes (read_arg t ty) (render sp co x) v)
  /\ (forall ts l vs, stands_all ts l vs -> forall its, shows_all false t l its ->
     Forall plain its /\ Forall is_char (sentence sp co its) /\ takes (read_list ts) (sentence sp co its) vs).
Proof.
  apply stands_both.
  - intros w sg x W I N y Sh. inversion Sh as [|? ? ? s E| | | | | | | |]; subst.
    split; [now split|]. split; [|now apply (takes_int w sg x s)].
    apply graphic_chars. apply (encode_graphic w sg (int_fmt t) x s W HB I E).
  - intros b y Sh. inversion Sh; subst. split; [now split|].
    assert (G : Forall graphic (bool_text t b)).
    { unfold bool_text. destruct (getf _ _), b; repeat constructor; unfold is_char, space; lia. }
    split; [now apply graphic_chars|]. cbn [render].
    apply takes_word; [unfold bool_text; destruct (getf _ _), b; discriminate|exact G|].
    intros a rest D C. apply execute_tape; [unfold bool_text; destruct (getf _ _), b; discriminate|].
    exact (bool_read_word (getf t flag_boolalpha) b rest).
  - intros c G y Sh. inversion Sh; subst. split; [now split|]. split; [repeat constructor; apply G|]. cbn [render].
    apply takes_word; [discriminate|repeat constructor; apply G|]. intros a rest D C. cbn [app]. rewrite mem_get_cons.
    rewrite mem_eof_tape. reflexivity.
  - intros n s N G y Sh. inversion Sh; subst. split; [now split|]. split; [now apply graphic_chars|]. cbn [render].
    apply takes_word; [exact N|exact G|]. intros a rest D C. now rewrite read_string_tape.
  - intros ts l vs _ IH y Sh. inversion Sh as [| | | | |? its Sl| | | |]; subst. destruct (IH its Sl) as (_ & C & T).
    split; [now split|]. cbn [render brace app]. rewrite app_nil_r. split; [exact C|].
    apply (takes_ext _ _ _ _ (read_tuple ts)). apply (takes_map _ VList); [reflexivity|exact T].
  - intros ty assoc l vs _ IH y Sh. inversion Sh as [| | | | | | |? ? ? its its' Sl Sz| |]; subst. cbn in Sz. subst its'.
    destruct (IH its Sl) as (_ & C & T).
    split; [now split|]. cbn [render brace app]. rewrite app_nil_r. split; [exact C|].
    apply (takes_ext _ _ _ _ (read_array (length l) ty)). apply (takes_map _ VList); [reflexivity|exact T].
  - intros ty assoc l vs N L _ IH y Sh. inversion Sh as [| | | | | | |? ? ? its its' Sl Sz| |]; subst.
    destruct Sz as (s & E & ->). destruct (IH its Sl) as (P & C & T).
    assert (I : in_ity (int_type 64 false) (Z.of_nat (length l))).
    { unfold in_ity, int_type. cbn in *. lia. }
    assert (Nz : Z.of_nat (length l) <> 0) by (destruct l; [easy|cbn; lia]).
    destruct (encode_graphic 64 false (int_fmt t) _ s ltac:(lia) HB I E) as (G & Ns).
    pose proof (takes_int 64 false _ s ltac:(lia) I Nz E) as Ti.
    assert (Pw : plain (Group [] [Word s] [])) by now split.
    assert (Rw : render sp co (Group [] [Word s] []) = s) by (cbn; now rewrite !app_nil_r).
    split; [now split|]. cbn [render brace app]. rewrite app_nil_r.
    change (with_gaps sp (map (fun y => (y, render sp co y)) (Group [] [Word s] [] :: its)))
      with (sentence sp co (Group [] [Word s] [] :: its)).
    split; [apply sentence_chars; try assumption; rewrite Rw; now apply graphic_chars|].
    intros a ws rest F D Cr.
    pose proof (takes_cons _ _ (Group [] [Word s] []) its _ _ Pw P C ltac:(rewrite Rw; exact Ti) T a ws rest F D Cr) as (c & ws' & E' & S & Fw).
    exists c, ws'. split; [|auto]. rewrite read_vector.
    destruct (skip_space _) as [m0| | | |]; try discriminate E'. cbn [bind] in E' |- *.
    destruct (execute _ _ _) as [[m1 [v|]]| | | |] eqn:Ee; try discriminate E'. cbn [bind] in E' |- *.
    unfold omap in E'. destruct (read_list _ m1) as [[m2 [w|]]| | | |] eqn:Er; try discriminate E'. cbn in E'.
    injection E' as -> -> ->. destruct (Z.leb_spec (2 ^ 63) (Z.of_nat (length l))); [lia|].
    rewrite Nat2Z.id, Er. reflexivity.
  - intros its Sh. inversion Sh; subst. split; [constructor|]. split; [constructor|].
    intros a ws rest F D C. exists [], ws. cbn. rewrite !app_nil_r. auto.
  - intros ty ts a l v vs _ IHa _ IHl its Sh. inversion Sh; subst.
    match goal with H : shows _ _ _ _ |- _ => destruct (IHa _ H) as (P & C & T) end.
    match goal with H : shows_all _ _ _ _ |- _ => destruct (IHl _ H) as (Pl & Cl & Tl) end.
    split; [now constructor|]. split; [now apply sentence_chars|]. now apply takes_cons.
Qed.
Transparent int_encode.
End Structured.
