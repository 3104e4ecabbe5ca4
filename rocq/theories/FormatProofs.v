(** Proofs about FormatModel.v: specifications of the rendered text. *)
From Coq Require Import ZArith List Bool Lia.
From Verif Require Import Outcome IntTypes IntTextModel IntTextProofs FormatModel.
Import ListNotations.
Local Open Scope Z_scope.

(** With enough fuel the run ends normally with these formats and this text. *)
Definition settles (f : nat -> result) (ls : list layer) (s : list Z) : Prop :=
  exists n, forall fuel, (n <= fuel)%nat -> f fuel = Ok (ls, s).

Lemma settles_unique f ls s ls' s' : settles f ls s -> settles f ls' s' -> ls = ls' /\ s = s'.
Proof.
  intros (n & H) (m & H'). specialize (H (n + m)%nat ltac:(lia)). specialize (H' (n + m)%nat ltac:(lia)).
  rewrite H in H'. injection H' as -> ->. auto.
Qed.

Lemma settles_nil F ls : settles (fun n => each (F n) ls []) ls [].
Proof. exists O. reflexivity. Qed.

Lemma settles_cons F ls a l ls1 s1 ls2 s2 :
  settles (fun n => F n ls a) ls1 s1 -> settles (fun n => each (F n) ls1 l) ls2 s2 ->
  settles (fun n => each (F n) ls (a :: l)) ls2 (s1 ++ s2).
Proof.
  intros (n & H) (m & H'). exists (Nat.max n m). intros fuel L. cbn [each].
  rewrite H by lia. cbn [bind]. rewrite H' by lia. reflexivity.
Qed.

Lemma settles_step F G ls s k : (forall n, F (k + n)%nat = G n) -> settles G ls s -> settles F ls s.
Proof.
  intros E (n & H). exists (k + n)%nat. intros fuel L. replace fuel with (k + (fuel - k))%nat by lia.
  rewrite E. apply H. lia.
Qed.

(** ** Specification of spaced text *)
(** What a reader of the text sees: a word; text glued to its neighbours; a group
    with an opening and a closing text; a key and a value. *)
Inductive item :=
| Word (s : list Z)
| Glue (s : list Z)
| Group (before : list Z) (l : list item) (after : list Z)
| Entry (k v : item).

Fixpoint glued_left (x : item) : bool :=
  match x with Glue _ => true | Entry k _ => glued_left k | _ => false end.
Fixpoint glued_right (x : item) : bool :=
  match x with Glue _ => true | Entry _ v => glued_right v | _ => false end.

(** The text between neighbours. *)
Definition gap (sp : list Z) (x y : item) : list Z := if glued_right x || glued_left y then [] else sp.

(** Texts of consecutive items with the gaps between neighbours. *)
Fixpoint with_gaps (sp : list Z) (l : list (item * list Z)) : list Z :=
  match l with
  | [] => []
  | (x, s) :: l' => s ++ match l' with [] => [] | (y, _) :: _ => gap sp x y end ++ with_gaps sp l'
  end.

Fixpoint render (sp co : list Z) (x : item) : list Z :=
  match x with
  | Word s | Glue s => s
  | Group b l e => b ++ with_gaps sp (map (fun y => (y, render sp co y)) l) ++ e
  | Entry k v => render sp co k ++ co ++ render sp co v
  end.

Definition sentence (sp co : list Z) (l : list item) : list Z :=
  with_gaps sp (map (fun y => (y, render sp co y)) l).

(** ** The items an argument stands for *)
Definition bool_text (t : text) (b : bool) : list Z :=
  if getf t flag_boolalpha then if b then [116; 114; 117; 101] else [102; 97; 108; 115; 101]
  else [if b then 49 else 48].

(** [br]: braces are shown (the braced format is in the composition). *)
Definition brace (br : bool) (c : Z) : list Z := if br then [c] else [].

Section Shows.
Context (br : bool) (t : text).

(** A dynamic container shows its size, unless braces delimit it. *)
Definition shows_size (dynamic : bool) (n : nat) (its its' : list item) : Prop :=
  if dynamic && negb br
  then exists s, int_encode 64 false (int_fmt t) (Z.of_nat n) = Ok s /\ its' = Group [] [Word s] [] :: its
  else its' = its.

Inductive shows : arg -> item -> Prop :=
| shows_bool b : shows (ABool b) (Word (bool_text t b))
| shows_int w sg x s : int_encode w sg (int_fmt t) x = Ok s -> shows (AInt w sg x) (Word s)
| shows_char c : shows (AChar c) (Word [c])
| shows_str s : shows (AStr s) (Word s)
| shows_raw s : shows (ARaw s) (Glue s)
| shows_tuple l its : shows_all l its -> shows (ATuple l) (Group (brace br 40) its (brace br 41))
| shows_io b l e its : shows_all l its -> shows (AIoTuple b l e) (Group (brace br 40 ++ b) its (e ++ brace br 41))
| shows_seq (assoc dynamic : bool) l its its' : shows_all l its -> shows_size dynamic (length l) its its' ->
    shows (ASeq assoc dynamic l)
          (Group (brace br (if assoc then 123 else 91)) its' (brace br (if assoc then 125 else 93)))
| shows_range l its : shows_all l its -> shows (ARange l) (Group [] its [])
| shows_entry k v ik iv : shows k ik -> shows v iv -> shows (ABatch [k; AColon; v]) (Entry ik iv)
with shows_all : list arg -> list item -> Prop :=
| shows_nil : shows_all [] []
| shows_cons a l x its : shows a x -> shows_all l its -> shows_all (a :: l) (x :: its).

Scheme shows_mind := Minimality for shows Sort Prop
  with shows_all_mind := Minimality for shows_all Sort Prop.
Combined Scheme shows_both from shows_mind, shows_all_mind.

Context (sp co : list Z).
Definition stack (sep : bool) : list layer :=
  LSpaced sp co sep :: (if br then [LBraced; LText t] else [LText t]).

Definition lead (sep : bool) (x : item) : list Z := if sep && negb (glued_left x) then sp else [].
Definition lead_all (sep : bool) (l : list item) : list Z := match l with [] => [] | x :: _ => lead sep x end.
Definition last_sep (sep : bool) (l : list item) : bool := fold_left (fun _ x => negb (glued_right x)) l sep.

Lemma sentence_cons x l : sentence sp co (x :: l)
  = render sp co x ++ lead_all (negb (glued_right x)) l ++ sentence sp co l.
Proof.
  unfold sentence. destruct l as [|y l]; [reflexivity|].
  cbn [map with_gaps lead_all]. unfold lead, gap.
  destruct (glued_right x), (glued_left y); reflexivity.
Qed.

Opaque int_encode getf.

(** Run [k] steps of the interpreter, keeping the rest of the fuel opaque. *)
Tactic Notation "steps" constr(n) int(k) :=
  exists (n + 9)%nat; intros fuel L; do k (destruct fuel as [|fuel]; [lia|]); cbn.
Ltac tidy := cbn; unfold lead, bool_text; cbn; rewrite ?app_nil_r, <- ?app_assoc; reflexivity.

Lemma colon_written sep : settles (fun n => write_impl n 0 (stack sep) AColon) (stack false) co.
Proof. unfold stack. destruct br; [steps 0%nat 5|steps 0%nat 4]; tidy. Qed.

Lemma int_written w sg x s sep : int_encode w sg (int_fmt t) x = Ok s ->
  settles (fun n => write_impl n 0 (stack sep) (AInt w sg x)) (stack true) (lead sep (Word s) ++ s).
Proof.
  intro E. unfold stack. destruct br, sep; [steps 0%nat 6|steps 0%nat 6|steps 0%nat 6|steps 0%nat 6];
    rewrite E; tidy.
Qed.

Lemma size_written m s : br = false -> int_encode 64 false (int_fmt t) m = Ok s ->
  settles (fun n => write_impl n 0 (stack false) (ASize m)) (stack true) s.
Proof.
  intros B E. destruct (int_written 64 false m s false E) as (n & H). unfold stack in *. rewrite B in *.
  steps n 3. rewrite H by lia. tidy.
Qed.

Lemma shows_written :
  (forall a x, shows a x -> forall sep,
     settles (fun n => write_impl n 0 (stack sep) a) (stack (negb (glued_right x))) (lead sep x ++ render sp co x))
  /\ (forall l its, shows_all l its -> forall sep,
     settles (fun n => each (write_impl n 0) (stack sep) l) (stack (last_sep sep its))
             (lead_all sep its ++ sentence sp co its)).
Proof.
  apply shows_both.
  - (* bool *) intros b sep. unfold stack. destruct br, sep; steps 0%nat 6; tidy.
  - intros w sg x s E sep. apply int_written, E.
  - intros c sep. unfold stack. destruct br, sep; steps 0%nat 6; tidy.
  - intros s sep. unfold stack. destruct br, sep; steps 0%nat 6; tidy.
  - intros s sep. unfold stack. destruct br, sep; steps 0%nat 6; tidy.
  - (* tuple *) intros l its _ IH sep. destruct (IH false) as (n & H).
    assert (LA : lead_all false its = []) by (destruct its; reflexivity). rewrite LA in H. cbn [app] in H.
    unfold stack in *. destruct br, sep; [steps n 5|steps n 5|steps n 3|steps n 3];
      rewrite H by lia; tidy.
  - (* user tuple *) intros b l e its _ IH sep. destruct (IH false) as (n & H).
    assert (LA : lead_all false its = []) by (destruct its; reflexivity). rewrite LA in H. cbn [app] in H.
    unfold stack in *. destruct br, sep; [steps n 5|steps n 5|steps n 3|steps n 3];
      rewrite H by lia; tidy.
  - (* container *) intros assoc dynamic l its its' _ IH Sz sep.
    assert (LA : lead_all false its = []) by (destruct its; reflexivity).
    unfold shows_size in Sz. destruct br eqn:B.
    + rewrite andb_false_r in Sz. subst its'. destruct (IH false) as (n & H). rewrite LA in H. cbn [app] in H.
      unfold stack in *. rewrite B in *.
      destruct assoc, sep; steps n 5; rewrite H by lia; tidy.
    + rewrite andb_true_r in Sz. destruct dynamic.
      * destruct Sz as (s & E & ->). destruct (IH true) as (n & H).
        destruct (size_written (Z.of_nat (length l)) s B E) as (m & H').
        assert (Q : with_gaps sp (map (fun y => (y, render sp co y)) (Group [] [Word s] [] :: its))
                    = s ++ lead_all true its ++ sentence sp co its).
        { change (with_gaps sp (map (fun y => (y, render sp co y)) (Group [] [Word s] [] :: its)))
            with (sentence sp co (Group [] [Word s] [] :: its)).
          rewrite sentence_cons. cbn. rewrite !app_nil_r. reflexivity. }
        cbn [render brace]. rewrite Q. unfold stack in *. rewrite B in *.
        destruct assoc, sep; steps (n + m)%nat 3; rewrite H' by lia; cbn; rewrite H by lia; tidy.
      * subst its'. destruct (IH false) as (n & H). rewrite LA in H. cbn [app] in H.
        unfold stack in *. rewrite B in *.
        destruct assoc, sep; steps n 3; rewrite H by lia; tidy.
  - (* range *) intros l its _ IH sep. destruct (IH false) as (n & H).
    assert (LA : lead_all false its = []) by (destruct its; reflexivity). rewrite LA in H. cbn [app] in H.
    unfold stack in *. destruct br, sep; [steps n 4|steps n 4|steps n 3|steps n 3];
      rewrite H by lia; tidy.
  - (* entry *) intros k v ik iv _ IHk _ IHv sep.
    destruct (IHk sep) as (n & H). destruct (IHv false) as (m & H'). destruct (colon_written (negb (glued_right ik))) as (o & H'').
    exists (n + m + o + 1)%nat. intros fuel L. destruct fuel as [|fuel]; [lia|].
    cbn [write_impl each]. rewrite H by lia. cbn [bind]. rewrite H'' by lia. cbn [bind]. rewrite H' by lia. tidy.
  - intro sep. apply settles_nil.
  - intros a l x its _ IHa _ IHl sep.
    destruct (settles_cons _ _ _ _ _ _ _ _ (IHa sep) (IHl _)) as (n & H).
    exists n. intros fuel L. rewrite H by assumption. cbn [last_sep fold_left lead_all].
    rewrite sentence_cons, <- !app_assoc. reflexivity.
Qed.
End Shows.
Transparent int_encode getf.

(** ** Which arguments can be shown *)
Lemma arg_induction (P : arg -> Prop) :
  (forall b, P (ABool b)) -> (forall w sg x, P (AInt w sg x)) -> (forall c, P (AChar c)) -> (forall s, P (AStr s)) ->
  (forall r s, P (ABytes r s)) -> (forall c n, P (ARepeat c n)) -> (forall s, P (AEsc s)) -> (forall s, P (ARaw s)) ->
  P AColon -> (forall n, P (ASize n)) ->
  (forall l, Forall P l -> P (ATuple l)) -> (forall b l e, Forall P l -> P (AIoTuple b l e)) ->
  (forall a d l, Forall P l -> P (ASeq a d l)) -> (forall l, Forall P l -> P (ARange l)) ->
  (forall l, Forall P l -> P (ABatch l)) -> (forall m, P (AManip m)) ->
  forall a, P a.
Proof.
  intros Hb Hi Hc Hs Hy Hr He Hw Hco Hz Ht Hio Hq Hra Hba Hm.
  fix IH 1.
  assert (All : forall l, Forall P l) by (fix IHl 1; intros [|a l]; constructor; [apply IH|apply IHl]).
  intros [b|w sg x|c|s|r s|c n|s|s| |n|l|b l e|a d l|l|l|m].
  - apply Hb. - apply Hi. - apply Hc. - apply Hs. - apply Hy. - apply Hr. - apply He. - apply Hw. - apply Hco. - apply Hz.
  - apply Ht, All. - apply Hio, All. - apply Hq, All. - apply Hra, All. - apply Hba, All. - apply Hm.
Qed.

(** Values of the types the library can print: booleans, integers, characters,
    strings, raw text, tuples, containers, ranges and key-value elements. *)
Fixpoint printable (a : arg) : Prop :=
  match a with
  | ABool _ | AChar _ | AStr _ | ARaw _ => True
  | AInt w sg x => 8 <= w <= 64 /\ in_ity (int_type w sg) x
  | ATuple l | AIoTuple _ l _ | ARange l => fold_right (fun a p => printable a /\ p) True l
  | ASeq _ _ l => Z.of_nat (length l) < 2 ^ 64 /\ fold_right (fun a p => printable a /\ p) True l
  | ABatch [k; AColon; v] => printable k /\ printable v
  | _ => False
  end.
Definition printable_all (l : list arg) : Prop := fold_right (fun a p => printable a /\ p) True l.

Lemma shows_all_exists br t l : Forall (fun a => printable a -> exists x, shows br t a x) l -> printable_all l ->
  exists its, shows_all br t l its.
Proof.
  induction 1 as [|a l H _ IH]; intro P; [exists []; constructor|].
  destruct P as (Pa & Pl). destruct (H Pa) as (x & Hx). destruct (IH Pl) as (its & Hi).
  exists (x :: its). constructor; assumption.
Qed.

Lemma size_shown t n : t_base t = 0 \/ 2 <= t_base t <= 36 -> Z.of_nat n < 2 ^ 64 ->
  exists s, int_encode 64 false (int_fmt t) (Z.of_nat n) = Ok s.
Proof.
  intros B H. destruct (int_encode_spec 64 false (int_fmt t) (Z.of_nat n)) as (ds & E & _).
  - lia. - exact B. - unfold in_ity, int_type. cbn in *. lia.
  - eauto.
Qed.

Lemma printable_shows br t : t_base t = 0 \/ 2 <= t_base t <= 36 -> forall a, printable a -> exists x, shows br t a x.
Proof.
  intro B.
  assert (Sq : forall l (d : bool), Z.of_nat (length l) < 2 ^ 64 -> forall its, exists its', shows_size br t d (length (A:=arg) l) its its').
  { intros l d L its. unfold shows_size. destruct (d && negb br) eqn:D; [|eauto].
    destruct (size_shown t (length l) B L) as (s & E). eauto. }
  apply (arg_induction (fun a => printable a -> exists x, shows br t a x)); intros; try contradiction.
  - eexists. apply shows_bool.
  - destruct H as (W & I). destruct (int_encode_spec w sg (int_fmt t) x W B I) as (ds & E & _).
    eexists. apply shows_int, E.
  - eexists. apply shows_char.
  - eexists. apply shows_str.
  - eexists. apply shows_raw.
  - destruct (shows_all_exists br t l H H0) as (its & Hi). eexists. apply shows_tuple, Hi.
  - destruct (shows_all_exists br t l H H0) as (its & Hi). eexists. apply shows_io, Hi.
  - destruct H0 as (L & H0). destruct (shows_all_exists br t l H H0) as (its & Hi).
    destruct (Sq l d L its) as (its' & Q). eexists. eapply shows_seq; eassumption.
  - destruct (shows_all_exists br t l H H0) as (its & Hi). eexists. apply shows_range, Hi.
  - destruct l as [|k [|[] [|v [|]]]]; try contradiction. destruct H0 as (Pk & Pv).
    inversion_clear H as [|? ? Hk H']. inversion_clear H' as [|? ? _ H'']. inversion_clear H'' as [|? ? Hv _].
    destruct (Hk Pk) as (ik & Ik). destruct (Hv Pv) as (iv & Iv). eexists. apply shows_entry; eassumption.
Qed.

Lemma printable_all_shows br t l : t_base t = 0 \/ 2 <= t_base t <= 36 -> printable_all l -> exists its, shows_all br t l its.
Proof.
  intros B P. apply shows_all_exists; [|assumption]. apply Forall_forall. intros a _. apply printable_shows, B.
Qed.

(** ** Words separated by single spaces *)
(** Texts with [sp] between neighbours. *)
Fixpoint separated (sp : list Z) (l : list (list Z)) : list Z :=
  match l with
  | [] => []
  | [s] => s
  | s :: l => s ++ sp ++ separated sp l
  end.

Lemma sentence_separated sp co its : Forall (fun x => glued_left x = false /\ glued_right x = false) its ->
  sentence sp co its = separated sp (map (render sp co) its).
Proof.
  induction 1 as [|x its (L & R) H IH]; [reflexivity|].
  rewrite sentence_cons, IH. destruct its as [|y its]; [cbn; rewrite !app_nil_r; reflexivity|].
  inversion_clear H as [|? ? (Ly & _) _]. cbn [lead_all lead map separated]. unfold lead. rewrite R, Ly. reflexivity.
Qed.

(** Cut at every occurrence of a character. *)
Fixpoint cut (d : Z) (s : list Z) : list (list Z) :=
  match s with
  | [] => [[]]
  | c :: s => if c =? d then [] :: cut d s
              else match cut d s with w :: l => (c :: w) :: l | [] => [[c]] end
  end.

Lemma cut_word d w rest : ~ In d w -> cut d (w ++ d :: rest) = w :: cut d rest.
Proof.
  induction w as [|c w IH]; intro N; cbn [app cut].
  - rewrite Z.eqb_refl. reflexivity.
  - destruct (Z.eqb_spec c d) as [->|D]; [destruct N; left; reflexivity|].
    rewrite IH; [reflexivity|intro; apply N; right; assumption].
Qed.
Lemma cut_last d w : ~ In d w -> cut d w = [w].
Proof.
  induction w as [|c w IH]; intro N; cbn [cut]; [reflexivity|].
  destruct (Z.eqb_spec c d) as [->|D]; [destruct N; left; reflexivity|].
  rewrite IH; [reflexivity|intro; apply N; right; assumption].
Qed.
Lemma cut_separated d l : l <> [] -> Forall (fun w => ~ In d w) l -> cut d (separated [d] l) = l.
Proof.
  intros N H. induction H as [|w l Hw H IH]; [contradiction|]. destruct l as [|v l].
  - apply cut_last, Hw.
  - change (separated [d] (w :: v :: l)) with (w ++ [d] ++ separated [d] (v :: l)). cbn [app].
    rewrite cut_word by assumption. rewrite IH by discriminate. reflexivity.
Qed.

(** ** Adjusted text *)
Lemma land_2 p : 0 <= p <= 3 -> (Z.land p 2 =? 0) = (p <? 2).
Proof. intro H. assert (p = 0 \/ p = 1 \/ p = 2 \/ p = 3) as [-> | [-> | [-> | ->]]] by lia; reflexivity. Qed.
Lemma land_1 p : 0 <= p <= 3 -> (Z.land p 1 =? 0) = ((p =? 0) || (p =? 2)).
Proof. intro H. assert (p = 0 \/ p = 1 \/ p = 2 \/ p = 3) as [-> | [-> | [-> | ->]]] by lia; reflexivity. Qed.

(** Padding on the left and on the right: all of it on the far side, or halves
    with the odd character on the right (center) or on the left (center_right). *)
Definition padded (place n l r : Z) : Prop :=
  l + r = n /\ 0 <= l /\ 0 <= r
  /\ match place with
     | 0 => l = 0
     | 1 => r = 0
     | 2 => l <= r <= l + 1
     | _ => r <= l <= r + 1
     end.

Lemma adjustment_padded width place size : 0 <= size -> 0 <= place <= 3 ->
  padded place (Z.max 0 (width - size)) (fst (adjustment width place size)) (snd (adjustment width place size)).
Proof.
  intros S P. unfold adjustment. rewrite land_2, land_1 by assumption.
  destruct (Z.leb_spec width size) as [L|L].
  - rewrite Z.max_l by lia. unfold padded. cbn [fst snd].
    assert (place = 0 \/ place = 1 \/ place = 2 \/ place = 3) as [-> | [-> | [-> | ->]]] by lia; lia.
  - rewrite Z.max_r by lia. pose proof (Z.div_mod (width - size) 2 ltac:(lia)).
    pose proof (Z.mod_pos_bound (width - size) 2 ltac:(lia)).
    unfold padded.
    assert (place = 0 \/ place = 1 \/ place = 2 \/ place = 3) as [-> | [-> | [-> | ->]]] by lia; cbn [Z.ltb Z.eqb Z.compare Pos.compare Pos.compare_cont negb orb andb Pos.eqb fst snd]; lia.
Qed.

(** ** Escaped text *)
(** The character a backslash sequence stands for. *)
Definition escape_table : list (Z * Z) :=
  [(48, 0); (97, 7); (98, 8); (116, 9); (110, 10); (118, 11); (102, 12); (114, 13); (34, 34); (39, 39); (92, 92)].
Fixpoint lookup (x : Z) (l : list (Z * Z)) : option Z :=
  match l with [] => None | (a, b) :: l => if a =? x then Some b else lookup x l end.

(** Decoder: reads characters and backslash sequences up to the closing quote [q];
    returns the decoded string and the rest of the text. *)
Fixpoint unquote (q : Z) (s : list Z) : option (list Z * list Z) :=
  match s with
  | [] => None
  | c :: s =>
      if c =? q then Some ([], s)
      else if c =? 92 then
        match s with
        | [] => None
        | e :: s => match lookup e escape_table, unquote q s with
                    | Some x, Some (w, rest) => Some (x :: w, rest)
                    | _, _ => None
                    end
        end
      else match unquote q s with Some (w, rest) => Some (c :: w, rest) | None => None end
  end.

Lemma escape_cases c : (escape c = 0 /\ ~ In c (map snd escape_table)) \/ (escape c <> 0 /\ lookup (escape c) escape_table = Some c
   /\ In c (map snd escape_table)).
Proof.
  unfold escape. cbn [map snd escape_table].
  repeat match goal with |- context [c =? ?k] =>
    destruct (Z.eqb_spec c k) as [->|];
      [right; split; [discriminate|]; split; [reflexivity|]; cbn; tauto|] end.
  left. split; [reflexivity|]. cbn. intuition congruence.
Qed.

Lemma unquote_escaped q s rest : q = 34 \/ q = 39 ->
  unquote q (write_escaped s ++ q :: rest) = Some (s, rest).
Proof.
  intro Q. induction s as [|c s IH].
  - cbn [write_escaped app unquote]. rewrite Z.eqb_refl. reflexivity.
  - cbn [write_escaped]. destruct (escape_cases c) as [(E & N)|(E & A & I)].
    + rewrite E. cbn [Z.eqb negb app unquote]. cbn [map snd escape_table In] in N.
      destruct (Z.eqb_spec c q); [intuition congruence|]. destruct (Z.eqb_spec c 92); [intuition congruence|].
      rewrite IH. reflexivity.
    + destruct (Z.eqb_spec (escape c) 0); [contradiction|]. cbn [negb app unquote].
      destruct (Z.eqb_spec 92 q); [destruct Q; lia|]. rewrite Z.eqb_refl, A, IH. reflexivity.
Qed.

(** Characters that never appear: the control characters with a short escape. *)
Definition control : list Z := [0; 7; 8; 9; 10; 11; 12; 13].
Lemma escaped_visible s c : In c control -> ~ In c (write_escaped s).
Proof.
  intros C. induction s as [|x s IH]; [intros []|]. cbn [write_escaped]. rewrite in_app_iff. intros [H|H]; [|auto].
  destruct (escape_cases x) as [(E & N)|(E & A & I)].
  - rewrite E in H. cbn in H. destruct H as [<-|[]]. apply N. cbn in C |- *. tauto.
  - destruct (Z.eqb_spec (escape x) 0); [contradiction|]. cbn [negb] in H.
    cbn [map snd escape_table In] in I. cbn [control In] in C.
    destruct H as [<-|[<-|[]]]; [lia|].
    repeat destruct I as [<-|I]; try contradiction; cbn in C; lia.
Qed.

(** ** Indented text *)
(** A new line at a nesting depth, or text that continues the current line. *)
Inductive piece := Line (d : Z) (s : list Z) | Same (s : list Z).
Definition piece_text (fill endl count : Z) (p : piece) : list Z :=
  match p with
  | Line d s => endl :: repeat fill (Z.to_nat (count * d)) ++ s
  | Same s => s
  end.
Definition int_text (t : text) (w : Z) (sg : bool) (x : Z) : list Z :=
  match int_encode w sg (int_fmt t) x with Ok s => s | _ => [] end.

(** The lines of an argument at depth [d]: a scalar or a tuple starts a line, the
    members of a tuple, container or range are one level deeper, strings and raw
    text continue the line, a container starts with its size two levels deeper. *)
Fixpoint lay (t : text) (d : Z) (a : arg) : list piece :=
  match a with
  | ABool b => [Line d (bool_text t b)]
  | AInt w sg x => [Line d (int_text t w sg x)]
  | AChar c => [Line d [c]]
  | AStr s | ARaw s => [Same s]
  | ATuple l => Line d [] :: flat_map (lay t (d + 1)) l
  | AIoTuple b l e => Line d b :: flat_map (lay t (d + 1)) l ++ [Same e]
  | ASeq _ dynamic l =>
      (if dynamic : bool then [Line (d + 1) []; Line (d + 2) (int_text t 64 false (Z.of_nat (length l)))] else [])
      ++ flat_map (lay t (d + 1)) l
  | ARange l => flat_map (lay t (d + 1)) l
  | ABatch [k; AColon; v] => lay t d k ++ Line d [] :: lay t d v
  | _ => []
  end.
Fixpoint height (a : arg) : Z :=
  match a with
  | ATuple l | AIoTuple _ l _ | ASeq _ _ l | ARange l => 2 + fold_right (fun a h => Z.max (height a) h) 0 l
  | ABatch l => fold_right (fun a h => Z.max (height a) h) 0 l
  | _ => 0
  end.
Definition height_all (l : list arg) : Z := fold_right (fun a h => Z.max (height a) h) 0 l.

Lemma height_nonneg a : 0 <= height a.
Proof.
  assert (All : forall l, 0 <= fold_right (fun a h => Z.max (height a) h) 0 l) by (induction l; cbn [fold_right]; lia).
  destruct a; cbn [height]; try lia; pose proof (All l); lia.
Qed.

Section Indent.
Context (t : text) (fill endl count : Z) (Base : t_base t = 0 \/ 2 <= t_base t <= 36) (Count : 0 <= count).
Definition ind_stack (d : Z) (indent : bool) : list layer := [LIndented fill endl count d indent; LText t].
Definition lines (l : list piece) : list Z := flat_map (piece_text fill endl count) l.
Definition fits (d h : Z) : Prop := 0 <= d /\ d + h < 2 ^ 64 /\ count * (d + h) < 2 ^ 64.

Lemma fits_le d h d' h' : fits d h -> 0 <= d' -> 0 <= h' -> d' + h' <= d + h -> fits d' h'.
Proof. unfold fits. intros. split; [lia|]. split; [lia|]. nia. Qed.
Lemma fits_now d h : fits d h -> 0 <= h -> (count * d) mod 2 ^ 64 = count * d /\ d mod 2 ^ 64 = d.
Proof. unfold fits. intros F H. split; apply Z.mod_small; nia. Qed.

Lemma lines_app a b : lines (a ++ b) = lines a ++ lines b.
Proof. apply flat_map_app. Qed.

Opaque int_encode getf Z.mul Z.modulo Z.pow Z.add.

Lemma raw_below n d b s : write_impl (S n) 1 (ind_stack d b) (ARaw s) = Ok (ind_stack d b, s).
Proof. reflexivity. Qed.
Lemma repeat_below n d b c m : write_impl (S n) 1 (ind_stack d b) (ARepeat c m) = Ok (ind_stack d b, repeat c (Z.to_nat m)).
Proof. reflexivity. Qed.

(** Arguments that start a line. *)
Definition starts_line (a : arg) : bool :=
  match a with ABool _ | AInt _ _ _ | AChar _ | ATuple _ | AIoTuple _ _ _ | ASize _ | AColon => true | _ => false end.

Lemma line_step d h a ls s : starts_line a = true -> fits d h -> 0 <= h ->
  settles (fun n => write_impl n 1 (ind_stack d true) a) ls s ->
  settles (fun n => write_impl n 0 (ind_stack d true) a) ls (endl :: repeat fill (Z.to_nat (count * d)) ++ s)
  /\ settles (fun n => write_impl n 0 (ind_stack d false) a) ls s.
Proof.
  intros SL F H (n & W). destruct (fits_now d h F H) as (M & _).
  split.
  - exists (n + 4)%nat. intros fuel L. do 2 (destruct fuel as [|fuel]; [lia|]).
    assert (E : write_impl (S (S fuel)) 0 (ind_stack d true) a
                = each (write_impl fuel 1) (ind_stack d true) [ARaw [endl]; ARepeat fill ((count * d) mod 2 ^ 64); a])
      by (destruct a; try discriminate; reflexivity).
    rewrite E, M. destruct fuel as [|fuel]; [lia|]. cbn [each].
    rewrite raw_below. cbn [bind]. rewrite repeat_below. cbn [bind]. rewrite W by lia. unfold ret. cbn [bind app].
    rewrite app_nil_r. reflexivity.
  - exists (n + 4)%nat. intros fuel L. do 2 (destruct fuel as [|fuel]; [lia|]).
    assert (E : write_impl (S (S fuel)) 0 (ind_stack d false) a
                = each (write_impl fuel 1) (ind_stack d true) [ARaw []; ARepeat 0 0; a])
      by (destruct a; try discriminate; reflexivity).
    rewrite E. destruct fuel as [|fuel]; [lia|]. cbn [each].
    rewrite raw_below. cbn [bind]. rewrite repeat_below. cbn [bind]. rewrite W by lia. unfold ret. cbn [bind app].
    rewrite app_nil_r. reflexivity.
Qed.

(** Writing below the first format. *)
Definition below (a : arg) (d : Z) (s : list Z) : Prop :=
  settles (fun n => write_impl n 1 (ind_stack d true) a) (ind_stack d true) s.

Lemma line_below a d h s : below a d s -> fits d h -> 0 <= h -> starts_line a = true ->
  settles (fun n => write_impl n 0 (ind_stack d true) a) (ind_stack d true) (endl :: repeat fill (Z.to_nat (count * d)) ++ s).
Proof. intros B F H SL. apply (line_step d h a _ s SL F H B). Qed.

Lemma level_back d h : fits d h -> 1 <= h ->
  (d + 1) mod 2 ^ 64 = d + 1 /\ (d + 1 + -1) mod 2 ^ 64 = d.
Proof. unfold fits. intros F H. split; [apply Z.mod_small; lia|]. rewrite Z.mod_small; lia. Qed.

Lemma guarded_deeper d h f s : fits d h -> 1 <= h ->
  f (ind_stack (d + 1) true) = Ok (ind_stack (d + 1) true, s) ->
  forall ind, guarded (ind_stack d ind) f = Ok (ind_stack d true, s).
Proof.
  intros F H E ind. destruct (level_back d h F H) as (L1 & L2).
  unfold guarded, ind_stack, manipulate. cbn [is_flag_manip andb manip_all manip_one bind].
  rewrite L1. unfold ind_stack in E. rewrite E. cbn [bind is_flag_manip andb manip_all manip_one].
  rewrite L2. reflexivity.
Qed.

Lemma int_below d w sg x s : int_encode w sg (int_fmt t) x = Ok s -> below (AInt w sg x) d s.
Proof. intro E. exists 1%nat. intros [|fuel] L; [lia|]. cbn. rewrite E. reflexivity. Qed.

Lemma size_below d h m s : fits d h -> 1 <= h -> int_encode 64 false (int_fmt t) m = Ok s ->
  below (ASize m) d (lines [Line (d + 1) s]).
Proof.
  intros F H E.
  destruct (line_step (d + 1) (h - 1) (AInt 64 false m) (ind_stack (d + 1) true) s eq_refl) as ((n & W) & _).
  { unfold fits in *. split; [lia|]. split; [lia|]. replace (d + 1 + (h - 1)) with (d + h) by lia. apply F. }
  { lia. }
  { apply int_below, E. }
  exists (n + 1)%nat. intros [|fuel] L; [lia|].
  change (guarded (ind_stack d true) (fun ls => write_impl fuel 0 ls (AInt 64 false m)) = Ok (ind_stack d true, lines [Line (d + 1) s])).
  apply (guarded_deeper d h _ _ F H). rewrite W by lia. cbn [lines flat_map piece_text]. rewrite app_nil_r. reflexivity.
Qed.

(** Leaves, and everything else one level deeper. *)
Definition laid (a : arg) : Prop := forall d, printable a -> fits d (height a) ->
  settles (fun n => write_impl n 0 (ind_stack d true) a) (ind_stack d true) (lines (lay t d a)).
Definition laid_all (l : list arg) : Prop := forall d, printable_all l -> fits d (height_all l) ->
  settles (fun n => each (write_impl n 0) (ind_stack d true) l) (ind_stack d true) (lines (flat_map (lay t d) l)).

Lemma height_all_nonneg l : 0 <= height_all l.
Proof. induction l; cbn [height_all fold_right]; [lia|]. fold (height_all l). lia. Qed.

Lemma laid_list l : Forall laid l -> laid_all l.
Proof.
  induction 1 as [|a l Ha _ IH]; intros d P F; [apply settles_nil|].
  destruct P as (Pa & Pl). cbn [height_all fold_right] in F. fold (height_all l) in F.
  pose proof (height_nonneg a). pose proof (height_all_nonneg l).
  assert (D : 0 <= d) by apply F.
  cbn [flat_map]. rewrite lines_app. eapply settles_cons.
  - apply Ha; [assumption|]. eapply fits_le; [exact F|lia|lia|lia].
  - apply IH; [assumption|]. eapply fits_le; [exact F|lia|lia|lia].
Qed.

(** A container whose elements are laid out, below the indented format. *)
Lemma seq_below d l (a : bool) (dynamic : bool) : laid_all l -> printable (ASeq a dynamic l) -> fits d (height (ASeq a dynamic l)) ->
  settles (fun n => write_impl n 1 (ind_stack d true) (ASeq a dynamic l)) (ind_stack d true) (lines (lay t d (ASeq a dynamic l)))
  /\ forall ind, settles (fun n => write_impl n 0 (ind_stack d ind) (ASeq a dynamic l)) (ind_stack d true) (lines (lay t d (ASeq a dynamic l))).
Proof.
  intros Hl (L & P) F. cbn [height] in F. fold (height_all l) in F. pose proof (height_all_nonneg l) as Hn.
  assert (D : 0 <= d) by apply F.
  destruct (Hl (d + 1) P) as (n & W). { eapply fits_le; [exact F|lia|lia|lia]. }
  destruct (size_shown t (length l) Base L) as (s & E).
  assert (F1 : fits (d + 1) 1) by (eapply fits_le; [exact F|lia|lia|lia]).
  destruct (line_step (d + 1) 1 (ASize (Z.of_nat (length l))) _ _ eq_refl F1 ltac:(lia)
              (size_below (d + 1) 1 _ s F1 ltac:(lia) E)) as ((m & Ws) & _).
  assert (G : forall ind fuel, (n + m <= fuel)%nat ->
            write_final (write_impl fuel 0) (ind_stack d ind) (ASeq a dynamic l) = Ok (ind_stack d true, lines (lay t d (ASeq a dynamic l)))).
  { intros ind fuel Lf. cbn [write_final].
    apply (guarded_deeper d (2 + height_all l) _ _ F ltac:(lia)).
    cbn [lay]. rewrite lines_app. destruct dynamic.
    - rewrite Ws by lia. cbn [bind]. rewrite W by lia. cbn [bind]. unfold ret. do 2 f_equal. f_equal.
      unfold int_text. rewrite E. cbn [lines flat_map piece_text]. rewrite !app_nil_r.
      replace (d + 1 + 1) with (d + 2) by lia. reflexivity.
    - unfold ret. cbn [bind]. rewrite W by lia. reflexivity. }
  split.
  - exists (n + m + 1)%nat. intros [|fuel] Lf; [lia|].
    change (write_final (write_impl fuel 0) (ind_stack d true) (ASeq a dynamic l)
            = Ok (ind_stack d true, lines (lay t d (ASeq a dynamic l)))).
    apply G. lia.
  - intro ind. exists (n + m + 2)%nat. intros [|[|fuel]] Lf; [lia|lia|].
    change (write_final (write_impl fuel 0) (ind_stack d ind) (ASeq a dynamic l)
            = Ok (ind_stack d true, lines (lay t d (ASeq a dynamic l)))).
    apply G. lia.
Qed.

Lemma range_below d l : laid_all l -> printable (ARange l) -> fits d (height (ARange l)) ->
  forall ind, settles (fun n => write_impl n 0 (ind_stack d ind) (ARange l)) (ind_stack d true) (lines (lay t d (ARange l))).
Proof.
  intros Hl P F. cbn [height] in F. fold (height_all l) in F. pose proof (height_all_nonneg l) as Hn.
  assert (D : 0 <= d) by apply F.
  destruct (Hl (d + 1) P) as (n & W). { eapply fits_le; [exact F|lia|lia|lia]. }
  intro ind. exists (n + 2)%nat. intros [|[|fuel]] Lf; [lia|lia|].
  change (guarded (ind_stack d ind) (fun ls => each (write_impl fuel 0) ls l) = Ok (ind_stack d true, lines (lay t d (ARange l)))).
  apply (guarded_deeper d (2 + height_all l) _ _ F ltac:(lia)). apply W. lia.
Qed.

Lemma tuple_below d l : laid_all l -> printable (ATuple l) -> fits d (height (ATuple l)) ->
  below (ATuple l) d (lines (flat_map (lay t (d + 1)) l)).
Proof.
  intros Hl P F. cbn [height] in F. fold (height_all l) in F. pose proof (height_all_nonneg l) as Hn.
  assert (D : 0 <= d) by apply F.
  destruct (Hl (d + 1) P) as (n & W). { eapply fits_le; [exact F|lia|lia|lia]. }
  exists (n + 1)%nat. intros [|fuel] Lf; [lia|].
  change (guarded (ind_stack d true) (fun ls => each (write_impl fuel 0) ls l) = Ok (ind_stack d true, lines (flat_map (lay t (d + 1)) l))).
  apply (guarded_deeper d (2 + height_all l) _ _ F ltac:(lia)). apply W. lia.
Qed.

Lemma io_below d b l e : laid_all l -> printable (AIoTuple b l e) -> fits d (height (AIoTuple b l e)) ->
  below (AIoTuple b l e) d (b ++ lines (flat_map (lay t (d + 1)) l) ++ e).
Proof.
  intros Hl P F. cbn [height] in F. fold (height_all l) in F. pose proof (height_all_nonneg l) as Hn.
  assert (D : 0 <= d) by apply F.
  destruct (Hl (d + 1) P) as (n & W). { eapply fits_le; [exact F|lia|lia|lia]. }
  exists (n + 1)%nat. intros [|fuel] Lf; [lia|].
  change (guarded (ind_stack d true) (fun ls => write_final (write_impl fuel 0) ls (AIoTuple b l e))
          = Ok (ind_stack d true, b ++ lines (flat_map (lay t (d + 1)) l) ++ e)).
  apply (guarded_deeper d (2 + height_all l) _ _ F ltac:(lia)). cbn [write_final]. rewrite W by lia. reflexivity.
Qed.

(** What an argument that starts a line writes after the indentation. *)
Definition rest_of (d : Z) (a : arg) : list Z :=
  match lay t d a with Line _ s :: l => s ++ lines l | _ => [] end.

Lemma starts_laid a d : laid_all (match a with ATuple l | AIoTuple _ l _ => l | _ => [] end) ->
  starts_line a = true -> printable a -> fits d (height a) ->
  below a d (rest_of d a) /\ exists s l, lay t d a = Line d s :: l.
Proof.
  intros Hl SL P F. destruct a; try discriminate; try contradiction; unfold rest_of; cbn [lay] in *.
  - split; [|eauto]. cbn [lines flat_map]. rewrite app_nil_r. exists 1%nat. intros [|fuel] L; [lia|]. reflexivity.
  - split; [|eauto]. cbn [lines flat_map]. rewrite app_nil_r. apply int_below.
    destruct P as (Wd & I). destruct (int_encode_spec w sg (int_fmt t) x Wd Base I) as (ds & E & _).
    unfold int_text. rewrite E. reflexivity.
  - split; [|eauto]. exists 1%nat. intros [|fuel] L; [lia|]. reflexivity.
  - split; [|eauto]. cbn [app]. apply tuple_below; assumption.
  - split; [|eauto]. rewrite lines_app. cbn [lines flat_map piece_text]. rewrite app_nil_r. apply io_below; assumption.
Qed.

Lemma all_laid a : laid a.
Proof.
  apply (arg_induction laid); try (intros; intros d P F; contradiction).
  1-3: intros; intros d P F; match goal with |- context [write_impl _ 0 _ ?a] =>
         destruct (starts_laid a d (fun _ _ _ => settles_nil _ _) eq_refl P F) as (B & s0 & l0 & E) end;
       pose proof (line_below _ d _ _ B F ltac:(cbn; lia) eq_refl) as R;
       unfold rest_of in R; rewrite E in R |- *; change (lines (Line d s0 :: l0)) with ((endl :: repeat fill (Z.to_nat (count * d)) ++ s0) ++ lines l0); cbn [app]; rewrite <- app_assoc; exact R.
  - intros s d P F. exists 2%nat. intros [|[|fuel]] L; [lia|lia|]. cbn. rewrite app_nil_r. reflexivity.
  - intros s d P F. exists 2%nat. intros [|[|fuel]] L; [lia|lia|]. cbn. rewrite app_nil_r. reflexivity.
  - intros l Hl d P F. destruct (starts_laid (ATuple l) d (laid_list l Hl) eq_refl P F) as (B & s0 & l0 & E).
    pose proof (line_below _ d _ _ B F (height_nonneg _) eq_refl) as R.
    unfold rest_of in R. rewrite E in R |- *.
    change (lines (Line d s0 :: l0)) with ((endl :: repeat fill (Z.to_nat (count * d)) ++ s0) ++ lines l0). cbn [app]. rewrite <- app_assoc. exact R.
  - intros b l e Hl d P F. destruct (starts_laid (AIoTuple b l e) d (laid_list l Hl) eq_refl P F) as (B & s0 & l0 & E).
    pose proof (line_below _ d _ _ B F (height_nonneg _) eq_refl) as R.
    unfold rest_of in R. rewrite E in R |- *.
    change (lines (Line d s0 :: l0)) with ((endl :: repeat fill (Z.to_nat (count * d)) ++ s0) ++ lines l0). cbn [app]. rewrite <- app_assoc. exact R.
  - intros a0 d0 l Hl d P F. apply seq_below; [apply laid_list|..]; assumption.
  - intros l Hl d P F. apply range_below; [apply laid_list|..]; assumption.
  - intros l Hl d P F. destruct l as [|k [|[] [|v [|]]]]; try contradiction. destruct P as (Pk & Pv).
    inversion_clear Hl as [|? ? Hk H']. inversion_clear H' as [|? ? _ H'']. inversion_clear H'' as [|? ? Hv _].
    cbn [height fold_right] in F. pose proof (height_nonneg k). pose proof (height_nonneg v).
    assert (D : 0 <= d) by apply F.
    destruct (Hk d Pk) as (n & W). { eapply fits_le; [exact F|lia|lia|lia]. }
    destruct (Hv d Pv) as (m & W'). { eapply fits_le; [exact F|lia|lia|lia]. }
    destruct (line_step d _ AColon (ind_stack d true) [] eq_refl F ltac:(lia)) as ((o & W'') & _).
    { exists 1%nat. intros [|fuel] L; [lia|]. reflexivity. }
    exists (n + m + o + 1)%nat. intros [|fuel] L; [lia|]. cbn [write_impl each].
    rewrite W by lia. cbn [bind]. rewrite W'' by lia. cbn [bind]. rewrite W' by lia. unfold ret. cbn [bind lay].
    rewrite lines_app. cbn [lines flat_map piece_text]. rewrite !app_nil_r. reflexivity.
Qed.

(** A fresh format: the first line is written without its line break. *)
Lemma fresh_laid a l : starts_line a = true -> printable_all (a :: l) -> fits 0 (height_all (a :: l)) ->
  exists s, settles (fun n => write n (ind_stack 0 false) (a :: l)) (ind_stack 0 true) s
            /\ endl :: s = lines (flat_map (lay t 0) (a :: l)).
Proof.
  intros SL (Pa & Pl) F. cbn [height_all fold_right] in F. fold (height_all l) in F.
  pose proof (height_nonneg a). pose proof (height_all_nonneg l).
  assert (Fa : fits 0 (height a)) by (eapply fits_le; [exact F|lia|lia|lia]).
  assert (Fl : fits 0 (height_all l)) by (eapply fits_le; [exact F|lia|lia|lia]).
  assert (Kids : laid_all (match a with ATuple l | AIoTuple _ l _ => l | _ => [] end))
    by (apply laid_list, Forall_forall; intros x _; apply all_laid).
  destruct (starts_laid a 0 Kids SL Pa Fa) as (B & s0 & l0 & E).
  destruct (line_step 0 _ _ _ _ SL Fa (height_nonneg _) B) as (_ & R).
  assert (Rl := laid_list l ltac:(apply Forall_forall; intros x _; apply all_laid) 0 Pl Fl).
  exists (rest_of 0 a ++ lines (flat_map (lay t 0) l)). split.
  - unfold write. eapply settles_cons; [exact R|exact Rl].
  - cbn [flat_map]. rewrite lines_app. unfold rest_of. rewrite E. cbn [lines flat_map piece_text].
    rewrite Z.mul_0_r. cbn [Z.to_nat repeat app]. rewrite <- !app_assoc. reflexivity.
Qed.
End Indent.
Transparent int_encode getf Z.mul Z.modulo Z.pow Z.add.

(** ** Nesting scopes are balanced *)
(** What of a format a nested value must leave as it was: everything but the
    pending separator, the pending line break and the flags. *)
Definition lasting (l : layer) : layer :=
  match l with
  | LSpaced sp co _ => LSpaced sp co false
  | LIndented fill endl count level _ => LIndented fill endl count level false
  | LText t => LText (with_flags t 0)
  | _ => l
  end.
Definition level_ok (l : layer) : Prop :=
  match l with LIndented _ _ _ level _ => 0 <= level < 2 ^ 64 | _ => True end.

(** No explicit change of the level among the arguments. *)
Fixpoint no_level (a : arg) : Prop :=
  match a with
  | AManip (MLevel _) => False
  | ATuple l | AIoTuple _ l _ | ASeq _ _ l | ARange l | ABatch l => fold_right (fun a p => no_level a /\ p) True l
  | _ => True
  end.
Definition no_level_all (l : list arg) : Prop := fold_right (fun a p => no_level a /\ p) True l.

Definition bump (deeper : bool) (l : layer) : layer :=
  match l with
  | LIndented fill endl count level i => LIndented fill endl count ((level + (if deeper then 1 else -1)) mod 2 ^ 64) i
  | _ => l
  end.

Lemma level_ok_lasting l l' : lasting l = lasting l' -> level_ok l -> level_ok l'.
Proof. destruct l, l'; cbn; intros E H; try exact I; try discriminate. congruence. Qed.
Lemma levels_ok_lasting ls ls' : map lasting ls = map lasting ls' -> Forall level_ok ls -> Forall level_ok ls'.
Proof.
  revert ls'. induction ls as [|l ls IH]; intros [|l' ls'] E H; try discriminate; constructor; injection E as E E';
    inversion_clear H; [eapply level_ok_lasting|apply IH]; eassumption.
Qed.

Lemma level_all d ls ls' : manipulate (MLevel d) ls = Ok ls' -> map lasting ls' = map (bump d) (map lasting ls).
Proof.
  unfold manipulate. cbn [is_flag_manip andb]. revert ls'.
  induction ls as [|l ls IH]; intros ls'; cbn [manip_all map]; [now injection 1 as <-|].
  intro H. apply bind_Ok in H. destruct H as (l' & El & H). apply bind_Ok in H. destruct H as (ls2 & E2 & H).
  injection H as <-. cbn [map]. f_equal; [|apply IH, E2].
  destruct l; cbn [manip_one] in El; injection El as <-; reflexivity.
Qed.

Lemma bump_ok d l : level_ok l -> level_ok (bump d l).
Proof. destruct l; cbn [bump level_ok]; trivial. intros _. apply Z.mod_pos_bound. lia. Qed.
Lemma bump_back l : level_ok l -> bump false (bump true l) = l.
Proof.
  destruct l; cbn [bump level_ok]; trivial. intro H. f_equal.
  rewrite Zplus_mod_idemp_l. replace (level + 1 + -1) with level by lia. apply Z.mod_small, H.
Qed.

Definition keeps (f : list layer -> arg -> result) : Prop := forall ls a ls' s,
  no_level a -> Forall level_ok ls -> f ls a = Ok (ls', s) -> map lasting ls' = map lasting ls.

Lemma each_keeps f : keeps f -> forall l ls ls' s, no_level_all l -> Forall level_ok ls ->
  each f ls l = Ok (ls', s) -> map lasting ls' = map lasting ls.
Proof.
  intros K l. induction l as [|a l IH]; intros ls ls' s N H E; cbn [each] in E.
  - injection E as <- _. reflexivity.
  - destruct N as (Na & Nl). apply bind_Ok in E. destruct E as ((ls1 & s1) & E1 & E).
    apply bind_Ok in E. destruct E as ((ls2 & s2) & E2 & E). injection E as <- _.
    pose proof (K _ _ _ _ Na H E1) as Q. rewrite <- Q. eapply IH; [exact Nl| |exact E2].
    eapply levels_ok_lasting; [symmetry; exact Q|exact H].
Qed.

Lemma guarded_keeps ls f ls' s : Forall level_ok ls ->
  (forall ls1 ls2 s, Forall level_ok ls1 -> f ls1 = Ok (ls2, s) -> map lasting ls2 = map lasting ls1) ->
  guarded ls f = Ok (ls', s) -> map lasting ls' = map lasting ls.
Proof.
  intros H K E. unfold guarded in E. apply bind_Ok in E. destruct E as (ls1 & E1 & E).
  apply bind_Ok in E. destruct E as ((ls2 & s2) & E2 & E). apply bind_Ok in E. destruct E as (ls3 & E3 & E).
  injection E as <- _. pose proof (level_all _ _ _ E1) as Q1. pose proof (level_all _ _ _ E3) as Q3.
  assert (H1 : Forall level_ok (map lasting ls)).
  { clear -H. induction H as [|l ls Hl _ IH]; constructor; [|exact IH]. destruct l; assumption. }
  assert (H2 : Forall level_ok ls1).
  { apply levels_ok_lasting with (ls := map (bump true) (map lasting ls)).
    - rewrite <- Q1. rewrite !map_map. apply map_ext. intros []; reflexivity.
    - clear -H1. induction H1; constructor; [apply bump_ok|]; assumption. }
  rewrite Q3, (K _ _ _ H2 E2), Q1, map_map.
  clear -H1. induction H1 as [|l ls' Hl _ IH]; [reflexivity|]. cbn [map]. rewrite bump_back by assumption. f_equal. exact IH.
Qed.

Lemma final_keeps rec : keeps rec -> keeps (write_final rec).
Proof.
  intros K ls a ls' s N H E. destruct a; cbn [write_final] in E; try discriminate;
    try (injection E as <- _; reflexivity).
  - eapply guarded_keeps; [exact H| |exact E]. cbv beta. intros ls1 ls2 s' H1 E1. eapply K; [|exact H1|exact E1]. exact I.
  - eapply guarded_keeps; [exact H| |exact E]. cbv beta. intros ls1 ls2 s' H1 E1. eapply each_keeps; [exact K|exact N|exact H1|exact E1].
  - apply bind_Ok in E. destruct E as ((ls1 & s1) & E1 & E). injection E as <- _.
    eapply each_keeps; [exact K|exact N|exact H|exact E1].
  - eapply guarded_keeps; [exact H| |exact E]. cbv beta. intros ls1 ls2 s' H1 E1.
    apply bind_Ok in E1. destruct E1 as ((ls3 & s3) & E3 & E1). apply bind_Ok in E1. destruct E1 as ((ls4 & s4) & E4 & E1).
    injection E1 as <- _.
    assert (Q : map lasting ls3 = map lasting ls1).
    { destruct dynamic; [eapply K; [|exact H1|exact E3]; exact I|]. injection E3 as <- _. reflexivity. }
    rewrite <- Q. eapply each_keeps; [exact K|exact N| |exact E4]. eapply levels_ok_lasting; [symmetry; exact Q|exact H1].
  - eapply guarded_keeps; [exact H| |exact E]. cbv beta. intros ls1 ls2 s' H1 E1. eapply each_keeps; [exact K|exact N|exact H1|exact E1].
Qed.

Lemma pre_final_keeps rec : keeps rec -> keeps (write_pre_final rec).
Proof.
  intros K ls a ls' s N H E.
  destruct a; cbn [write_pre_final] in E; try (eapply final_keeps; [exact K|exact N|exact H|exact E]).
  - eapply guarded_keeps; [exact H| |exact E]. cbv beta. intros ls1 ls2 s' H1 E1.
    eapply final_keeps; [exact K| |exact H1|exact E1]. exact N.
  - eapply each_keeps; [apply final_keeps, K|exact N|exact H|exact E].
Qed.

Lemma encode_keeps l a l' a' : no_level a -> encode l a = Ok (l', a') -> lasting l' = lasting l /\ no_level a'.
Proof.
  intros N E.
  destruct l; cbn [encode] in E.
  - destruct a; try (destruct separate; injection E as <- <-; cbn; tauto);
      try (injection E as <- <-; cbn; tauto).
  - destruct (match a with ARaw _ => true | _ => false end) eqn:R.
    + destruct a; try discriminate. injection E as <- <-. cbn. tauto.
    + assert (E' : (if is_range a then Ok (LIndented fill endl count level indent, a)
          else if negb indent
          then Ok (LIndented fill endl count level true, ABatch [ARaw []; ARepeat 0 0; a])
          else Ok (LIndented fill endl count level indent, ABatch [ARaw [endl]; ARepeat fill ((count * level) mod 2 ^ 64); a]))
          = Ok (l', a')) by (destruct a; try discriminate; exact E).
      destruct (is_range a); [injection E' as <- <-; tauto|]. destruct indent; injection E' as <- <-; cbn; tauto.
  - destruct a; try (injection E as <- <-; cbn in *; tauto). destruct assoc; injection E as <- <-; cbn in *; tauto.
  - destruct a; try (injection E as <- <-; cbn in *; tauto).
  - destruct a; injection E as <- <-; cbn in *; tauto.
  - destruct a; try (injection E as <- <-; cbn in *; tauto).
    apply bind_Ok in E. destruct E as (s & _ & E). injection E as <- <-. cbn. tauto.
Qed.

Lemma put_lasting k l' ls l : nth_error ls k = Some l -> lasting l' = lasting l -> map lasting (put k l' ls) = map lasting ls.
Proof.
  revert ls. induction k as [|k IH]; intros [|x ls] E Q; cbn in E |- *; try discriminate.
  - injection E as ->. congruence.
  - f_equal. apply IH; assumption.
Qed.

Lemma manip_lasting m ls ls' : (forall d, m <> MLevel d) -> manipulate m ls = Ok ls' -> map lasting ls' = map lasting ls.
Proof.
  intros N. unfold manipulate. destruct (is_flag_manip m && (1 <? Z.of_nat (length ls))); [discriminate|]. revert ls'.
  induction ls as [|l ls IH]; intros ls'; cbn [manip_all map]; [now injection 1 as <-|].
  intro H. apply bind_Ok in H. destruct H as (l' & El & H). apply bind_Ok in H. destruct H as (ls2 & E2 & H).
  injection H as <-. cbn [map]. f_equal; [|apply IH, E2].
  destruct m; [| | |destruct (N deeper); reflexivity]; destruct l; cbn [manip_one] in El; try discriminate;
    try (injection El as <-; reflexivity).
  - injection El as <-. destruct value; reflexivity.
  - apply bind_Ok in El. destruct El as (t' & Et & El). injection El as <-. unfold setg in Et.
    destruct (nth_error group_bits (Z.to_nat group)); [|discriminate]. destruct (group <? 0); [discriminate|].
    injection Et as <-. reflexivity.
Qed.

Lemma write_impl_keeps fuel : forall k, keeps (fun ls a => write_impl fuel k ls a).
Proof.
  induction fuel as [|n IH]; intros k ls a ls' s N H E; [discriminate|].
  assert (Gen : (match nth_error ls k with
          | None => UB
          | Some l =>
              do (l', a') <- encode l a;
              if (S k <? length ls)%nat then write_impl n (S k) (put k l' ls) a'
              else write_pre_final (write_impl n 0) (put k l' ls) a'
          end) = Ok (ls', s) -> map lasting ls' = map lasting ls).
  { clear E. intro E. destruct (nth_error ls k) as [l|] eqn:Nk; [|discriminate].
    apply bind_Ok in E. destruct E as ((l' & a') & En & E). destruct (encode_keeps l a l' a' N En) as (Ql & Na').
    pose proof (put_lasting k l' ls l Nk Ql) as Q. rewrite <- Q.
    assert (H' : Forall level_ok (put k l' ls)) by (eapply levels_ok_lasting; [symmetry; exact Q|exact H]).
    destruct (S k <? length ls)%nat.
    - eapply (IH (S k)); [exact Na'|exact H'|exact E].
    - eapply pre_final_keeps; [apply (IH O)|exact Na'|exact H'|exact E]. }
  destruct a; try (apply Gen; exact E).
  - cbn [write_impl] in E. eapply each_keeps; [apply (IH k)|exact N|exact H|exact E].
  - clear Gen. cbn [write_impl] in E. apply bind_Ok in E. destruct E as (tl & E1 & E). injection E as <- _.
    apply manip_lasting in E1; [|intros d ->; exact N].
    rewrite map_app, E1, <- map_app, firstn_skipn. reflexivity.
Qed.

Lemma write_keeps fuel ls args ls' s : no_level_all args -> Forall level_ok ls -> write fuel ls args = Ok (ls', s) ->
  map lasting ls' = map lasting ls.
Proof. apply each_keeps, (write_impl_keeps fuel 0). Qed.

(** ** Flags *)
Definition all_ones : Z := 2 ^ 32 - 1.
Definition is_flags (x : Z) : Prop := 0 <= x < 2 ^ 32.

Lemma clear_bits_spec x b i : is_flags b -> 0 <= i < 32 -> Z.testbit (clear_bits x b) i = Z.testbit x i && negb (Z.testbit b i).
Proof.
  intros B I. unfold clear_bits. rewrite Z.land_spec. f_equal.
  replace (2 ^ 32 - 1 - b) with ((Z.lnot b) mod 2 ^ 32).
  - rewrite Z.mod_pow2_bits_low by lia. apply Z.lnot_spec. lia.
  - unfold Z.lnot, is_flags in *. replace (Z.pred (- b)) with (2 ^ 32 - 1 - b + (-1) * 2 ^ 32) by lia.
    rewrite Z_mod_plus_full. apply Z.mod_small. lia.
Qed.

Lemma group_testbit i : 0 <= i < 32 -> Z.testbit 224 i = ((5 <=? i) && (i <=? 7)).
Proof.
  intro I. assert (T : forall n, (n < 32)%nat -> Z.testbit 224 (Z.of_nat n) = ((5 <=? Z.of_nat n) && (Z.of_nat n <=? 7))).
  { intros n L. do 32 (destruct n as [|n]; [vm_compute; reflexivity|]). lia. }
  rewrite <- (Z2Nat.id i) by lia. apply T. lia.
Qed.

(** The effect of a manipulator on one bit of the flags. *)
Definition bit_step (i : Z) (b : bool) (m : manip) : bool :=
  match m with
  | MSetf f v => if Z.testbit f i then v else b
  | MSetg _ f => if (5 <=? i) && (i <=? 7) then Z.testbit f i else b
  | _ => b
  end.
Definition good_manip (m : manip) : Prop :=
  match m with MSetf f _ => is_flags f | MSetg g f => g = 0 /\ is_flags f | _ => True end.

(** The manipulators of the arguments in the order of writing. *)
Fixpoint manips (a : arg) : list manip :=
  match a with
  | AManip m => [m]
  | ATuple l | AIoTuple _ l _ | ASeq _ _ l | ARange l | ABatch l => flat_map manips l
  | _ => []
  end.

(** The formats are a single [text]; [moves t ms t']: the manipulators lead from t to t'. *)
Definition moves (t : text) (ms : list manip) (t' : text) : Prop :=
  t_base t' = t_base t /\ t_precision t' = t_precision t
  /\ forall i, 0 <= i < 32 -> Z.testbit (t_flags t') i = fold_left (bit_step i) ms (Z.testbit (t_flags t) i).

Lemma moves_nil t : moves t [] t.
Proof. repeat split. Qed.
Lemma moves_app t ms t1 ms' t2 : moves t ms t1 -> moves t1 ms' t2 -> moves t (ms ++ ms') t2.
Proof.
  intros (B & P & F) (B' & P' & F'). split; [congruence|]. split; [congruence|].
  intros i I. rewrite F' by assumption. rewrite F by assumption. rewrite fold_left_app. reflexivity.
Qed.

Lemma manip_moves m t ls : good_manip m -> manipulate m [LText t] = Ok ls -> exists t', ls = [LText t'] /\ moves t [m] t'.
Proof.
  intros G E. unfold manipulate in E.
  assert (Q : is_flag_manip m && (1 <? Z.of_nat (length [LText t])) = false) by (destruct m; reflexivity).
  rewrite Q in E. clear Q.
  cbn [manip_all] in E. apply bind_Ok in E. destruct E as (l & E1 & E). cbn [bind] in E. injection E as <-.
  destruct m; cbn [manip_one] in E1.
  - injection E1 as <-. eexists. split; [reflexivity|]. cbn [good_manip] in G.
    destruct value; (split; [reflexivity|]; split; [reflexivity|]); intros i I; cbn [fold_left bit_step setf unsetf with_flags t_flags].
    + rewrite Z.lor_spec. destruct (Z.testbit flag i), (Z.testbit (t_flags t) i); reflexivity.
    + rewrite clear_bits_spec by assumption. destruct (Z.testbit flag i), (Z.testbit (t_flags t) i); reflexivity.
  - destruct G as (-> & G). apply bind_Ok in E1. destruct E1 as (t' & Et & E1). injection E1 as <-.
    change (Ok (with_flags t (set_bits (t_flags t) 224 flag)) = Ok t') in Et. injection Et as <-.
    eexists. split; [reflexivity|]. split; [reflexivity|]. split; [reflexivity|].
    intros i I. cbn [fold_left bit_step with_flags t_flags]. unfold set_bits.
    rewrite Z.lor_spec, Z.land_spec, clear_bits_spec by (unfold is_flags; lia). rewrite group_testbit by assumption.
    destruct (5 <=? i), (i <=? 7), (Z.testbit flag i), (Z.testbit (t_flags t) i); reflexivity.
  - injection E1 as <-. eexists. split; [reflexivity|]. repeat split.
  - injection E1 as <-. eexists. split; [reflexivity|]. repeat split.
Qed.

Definition good (a : arg) : Prop := Forall good_manip (manips a).
Definition tracks (f : list layer -> arg -> result) : Prop := forall t a ls' s,
  good a -> f [LText t] a = Ok (ls', s) -> exists t', ls' = [LText t'] /\ moves t (manips a) t'.

Lemma each_tracks f : tracks f -> forall l t ls' s, Forall good_manip (flat_map manips l) ->
  each f [LText t] l = Ok (ls', s) -> exists t', ls' = [LText t'] /\ moves t (flat_map manips l) t'.
Proof.
  intros K l. induction l as [|a l IH]; intros t ls' s G E; cbn [each flat_map] in *.
  - injection E as <- _. eexists. split; [reflexivity|apply moves_nil].
  - apply Forall_app in G. destruct G as (Ga & Gl).
    apply bind_Ok in E. destruct E as ((ls1 & s1) & E1 & E).
    apply bind_Ok in E. destruct E as ((ls2 & s2) & E2 & E). injection E as <- _.
    destruct (K _ _ _ _ Ga E1) as (t1 & -> & M1). destruct (IH _ _ _ Gl E2) as (t2 & -> & M2).
    eexists. split; [reflexivity|]. eapply moves_app; eassumption.
Qed.

Lemma guarded_tracks t f ls' s (ms : list manip) :
  (forall ls2 s, f [LText t] = Ok (ls2, s) -> exists t', ls2 = [LText t'] /\ moves t ms t') ->
  guarded [LText t] f = Ok (ls', s) -> exists t', ls' = [LText t'] /\ moves t ms t'.
Proof.
  intros K E. unfold guarded in E. cbn [manipulate is_flag_manip andb manip_all manip_one bind] in E.
  apply bind_Ok in E. destruct E as ((ls2 & s2) & E2 & E). destruct (K _ _ E2) as (t' & -> & M).
  cbn in E. injection E as <- _. eauto.
Qed.

Lemma final_tracks rec t a ls' s : tracks rec -> good a -> (forall m, a <> AManip m) ->
  write_final rec [LText t] a = Ok (ls', s) -> exists t', ls' = [LText t'] /\ moves t (manips a) t'.
Proof.
  intros K G Nm E. destruct a; cbn [write_final] in E; try discriminate;
    try (injection E as <- _; eexists; split; [reflexivity|apply moves_nil]).
  - eapply guarded_tracks; [|exact E]. cbv beta. intros ls2 s' E1. apply (K _ (AInt 64 false n) _ _ (Forall_nil _) E1).
  - eapply guarded_tracks; [|exact E]. cbv beta. intros ls2 s' E1. eapply each_tracks; [exact K|exact G|exact E1].
  - apply bind_Ok in E. destruct E as ((ls1 & s1) & E1 & E). injection E as <- _.
    eapply each_tracks; [exact K|exact G|exact E1].
  - eapply guarded_tracks; [|exact E]. cbv beta. intros ls2 s' E1.
    apply bind_Ok in E1. destruct E1 as ((ls3 & s3) & E3 & E1). apply bind_Ok in E1. destruct E1 as ((ls4 & s4) & E4 & E1).
    injection E1 as <- _.
    assert (Q : exists t3, ls3 = [LText t3] /\ moves t [] t3).
    { destruct dynamic; [apply (K _ (ASize (Z.of_nat (length l))) _ _ (Forall_nil _) E3)|].
      injection E3 as <- _. eexists. split; [reflexivity|apply moves_nil]. }
    destruct Q as (t3 & -> & M3). destruct (each_tracks rec K l t3 _ _ G E4) as (t4 & -> & M4).
    eexists. split; [reflexivity|]. apply (moves_app t [] t3 _ t4 M3 M4).
  - eapply guarded_tracks; [|exact E]. cbv beta. intros ls2 s' E1. eapply each_tracks; [exact K|exact G|exact E1].
  - destruct (Nm m). reflexivity.
Qed.

Lemma write_impl_tracks fuel : tracks (fun ls a => write_impl fuel 0 ls a).
Proof.
  induction fuel as [|n IH]; intros t a ls' s G E; [discriminate|].
  destruct a; cbn [write_impl] in E;
    try (eapply each_tracks; [exact IH|exact G|exact E]).
  all: try (cbn in E; injection E as <- _; eexists; split; [reflexivity|apply moves_nil]).
  - cbn [nth_error encode bind length Nat.ltb Nat.leb put write_pre_final write_final] in E.
    apply bind_Ok in E. destruct E as ((l' & a') & E1 & E). apply bind_Ok in E1. destruct E1 as (s0 & _ & E1).
    injection E1 as <- <-. cbn in E. injection E as <- _. eexists. split; [reflexivity|apply moves_nil].
  - cbn [nth_error encode bind length Nat.ltb Nat.leb put write_pre_final] in E.
    eapply final_tracks; [exact IH|exact G|discriminate|exact E].
  - cbn [nth_error encode bind length Nat.ltb Nat.leb put write_pre_final] in E.
    eapply final_tracks; [exact IH|exact G|discriminate|exact E].
  - cbn [nth_error encode bind length Nat.ltb Nat.leb put write_pre_final] in E.
    eapply guarded_tracks; [|exact E]. intros ls2 s2 E2. eapply (final_tracks _ t (AIoTuple before l after)); [exact IH|exact G|discriminate|exact E2].
  - cbn [nth_error encode bind length Nat.ltb Nat.leb put write_pre_final] in E.
    eapply final_tracks; [exact IH|exact G|discriminate|exact E].
  - cbn [nth_error encode bind length Nat.ltb Nat.leb put write_pre_final] in E.
    eapply final_tracks; [exact IH|exact G|discriminate|exact E].
  - cbn [skipn firstn app] in E. apply bind_Ok in E. destruct E as (tl & E1 & E). injection E as <- _.
    inversion_clear G. eapply manip_moves; eassumption.
Qed.

Lemma write_tracks fuel t args ls' s : Forall good_manip (flat_map manips args) ->
  write fuel [LText t] args = Ok (ls', s) -> exists t', ls' = [LText t'] /\ moves t (flat_map manips args) t'.
Proof. apply each_tracks, write_impl_tracks. Qed.
