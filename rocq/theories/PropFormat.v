(** Properties C25 - C28, C75, C76: text formats and their composition. *)
From Coq Require Import ZArith List Bool Lia.
From Verif Require Import Outcome IntTypes IntTextModel IntTextProofs FormatModel FormatProofs.
Import ListNotations.
Local Open Scope Z_scope.

(** * C25: escaped strings *)
Lemma escaped_settles t a q s : (a = AStr s /\ q = 34) \/ (exists c, a = AChar c /\ s = [c] /\ q = 39) ->
  settles (fun n => write_impl n 0 [LEscaped; LText t] a) [LEscaped; LText t] (q :: write_escaped s ++ [q]).
Proof.
  intros [(-> & ->)|(c & -> & -> & ->)]; exists 4%nat; intros fuel L; do 4 (destruct fuel as [|fuel]; [lia|]);
    cbn -[write_escaped]; unfold ret; cbn [bind app]; rewrite ?app_nil_r; reflexivity.
Qed.

(** The text of a string is a quote and a body; the decoder, started after the
    quote, returns the string and whatever follows the closing quote. *)
Theorem C25_string : forall t s, exists body,
  settles (fun n => write n [LEscaped; LText t] [AStr s]) [LEscaped; LText t] (34 :: body)
  /\ (forall rest, unquote 34 (body ++ rest) = Some (s, rest))
  /\ (forall c, In c [0; 7; 8; 9; 10; 11; 12; 13] -> ~ In c body).
Proof.
  intros t s. exists (write_escaped s ++ [34]). split; [|split].
  - replace (34 :: write_escaped s ++ [34]) with ((34 :: write_escaped s ++ [34]) ++ []) by apply app_nil_r.
    eapply settles_cons; [apply escaped_settles; left; split; reflexivity|apply settles_nil].
  - intro rest. rewrite <- app_assoc. apply unquote_escaped. left. reflexivity.
  - intros c C. rewrite in_app_iff. intros [H|[<-|[]]]; [exact (escaped_visible s c C H)|].
    cbn in C. lia.
Qed.
Print Assumptions C25_string.

Theorem C25_char : forall t c, exists body,
  settles (fun n => write n [LEscaped; LText t] [AChar c]) [LEscaped; LText t] (39 :: body)
  /\ (forall rest, unquote 39 (body ++ rest) = Some ([c], rest)).
Proof.
  intros t c. exists (write_escaped [c] ++ [39]). split.
  - replace (39 :: write_escaped [c] ++ [39]) with ((39 :: write_escaped [c] ++ [39]) ++ []) by apply app_nil_r.
    eapply settles_cons; [|apply settles_nil].
    apply escaped_settles. right. exists c. auto.
  - intro rest. rewrite <- app_assoc. apply unquote_escaped. right. reflexivity.
Qed.
Print Assumptions C25_char.

(** Strings written one after another without a separator determine the list. *)
Theorem C25_list_injective : forall t ss ss' ls out ls',
  settles (fun n => write n [LEscaped; LText t] (map AStr ss)) ls out ->
  settles (fun n => write n [LEscaped; LText t] (map AStr ss')) ls' out -> ss = ss'.
Proof.
  intros t.
  assert (W : forall ss, settles (fun n => write n [LEscaped; LText t] (map AStr ss)) [LEscaped; LText t]
                (concat (map (fun s => 34 :: write_escaped s ++ [34]) ss))).
  { induction ss as [|s ss IH]; [apply settles_nil|]. cbn [map concat].
    eapply settles_cons; [|exact IH]. apply escaped_settles. left. auto. }
  assert (I : forall ss ss', concat (map (fun s => 34 :: write_escaped s ++ [34]) ss)
                = concat (map (fun s => 34 :: write_escaped s ++ [34]) ss') -> ss = ss').
  { induction ss as [|s ss IH]; intros [|s' ss'] E; cbn [map concat app] in E; try discriminate; [reflexivity|].
    assert (E' := f_equal (fun l => unquote 34 (tl l)) E). cbn [tl] in E'. rewrite <- !app_assoc in E'. cbn [app] in E'.
    rewrite !unquote_escaped in E' by (left; reflexivity). injection E' as -> E'. f_equal. apply IH, E'. }
  intros ss ss' ls out ls' H H'. apply I.
  transitivity out; [|symmetry].
  - apply (settles_unique _ _ _ _ _ (W ss) H).
  - apply (settles_unique _ _ _ _ _ (W ss') H').
Qed.
Print Assumptions C25_list_injective.

(** Zero, a quote, a backslash and z. *)
Example C25_case : omap snd (write 10 [LEscaped; LText plain_text] [AStr [0; 34; 92; 122]])
  = Ok [34; 92; 48; 92; 34; 92; 92; 122; 34]
  /\ unquote 34 [92; 48; 92; 34; 92; 92; 122; 34; 33] = Some ([0; 34; 92; 122], [33]).
Proof. split; vm_compute; reflexivity. Qed.

(** * C26: adjusted text *)
(** A scalar or a string is first turned into text, then padded. *)
Theorem C26_adjusted : forall t a s width place fill,
  shows false t a (Word s) -> 0 <= place <= 3 ->
  exists l r, padded place (Z.max 0 (width - Z.of_nat (length s))) l r
    /\ settles (fun n => write n [LText t; LAdjusted width place fill] [a]) [LText t; LAdjusted width place fill]
               (repeat fill (Z.to_nat l) ++ s ++ repeat fill (Z.to_nat r)).
Proof.
  intros t a s width place fill Sh P.
  exists (fst (adjustment width place (Z.of_nat (length s)))), (snd (adjustment width place (Z.of_nat (length s)))).
  split; [apply adjustment_padded; lia|].
  rewrite <- (app_nil_r (_ ++ _ ++ _)).
  eapply settles_cons; [|apply settles_nil].
  inversion Sh; subst; exists 4%nat; intros fuel L; do 4 (destruct fuel as [|fuel]; [lia|]);
    cbn -[int_encode getf adjustment]; unfold bool_text.
  - destruct (getf t flag_boolalpha), b; cbn -[adjustment]; unfold ret; cbn [bind app]; rewrite ?app_nil_r; reflexivity.
  - match goal with H : int_encode _ _ _ _ = _ |- _ => rewrite H end.
    cbn -[adjustment]; unfold ret; cbn [bind app]; rewrite ?app_nil_r; reflexivity.
  - unfold ret; cbn [bind app]; rewrite ?app_nil_r; reflexivity.
  - unfold ret; cbn [bind app]; rewrite ?app_nil_r; reflexivity.
Qed.
Print Assumptions C26_adjusted.

(** The length is the larger of the width and the length of the text. *)
Corollary C26_length : forall t a s width place fill,
  shows false t a (Word s) -> 0 <= place <= 3 ->
  exists out, settles (fun n => write n [LText t; LAdjusted width place fill] [a]) [LText t; LAdjusted width place fill] out
    /\ Z.of_nat (length out) = Z.max width (Z.of_nat (length s))
    /\ exists l r, out = l ++ s ++ r /\ Forall (eq fill) (l ++ r).
Proof.
  intros t a s width place fill Sh P. destruct (C26_adjusted t a s width place fill Sh P) as (l & r & (E & L & R & _) & W).
  eexists. split; [exact W|]. split.
  - rewrite !app_length, !repeat_length. lia.
  - eexists _, _. split; [reflexivity|]. apply Forall_app. split; apply Forall_forall; intros x H; apply repeat_spec in H; congruence.
Qed.
Print Assumptions C26_length.

(** 42 in the width 5: "*42**", right-biased "**42*". *)
Example C26_case : shows false plain_text (AInt 32 true 42) (Word [52; 50])
  /\ omap snd (write 10 [LText plain_text; LAdjusted 5 2 42] [AInt 32 true 42]) = Ok [42; 52; 50; 42; 42]
  /\ omap snd (write 10 [LText plain_text; LAdjusted 5 3 42] [AInt 32 true 42]) = Ok [42; 42; 52; 50; 42]
  /\ padded 2 3 1 2 /\ padded 3 3 2 1.
Proof.
  split; [apply shows_int; vm_compute; reflexivity|]. split; [vm_compute; reflexivity|]. split; [vm_compute; reflexivity|].
  unfold padded. lia.
Qed.

(** * C27: spaced text *)
(** [shows br t a x]: the argument is shown as the item [x] (a word, glued text, a
    group of items, a key with a value); with braces ([br]) groups are delimited,
    without them dynamic containers start with their size. *)
Theorem C27_spaced : forall br t sp co args its,
  shows_all br t args its ->
  exists ls, settles (fun n => write n (stack br t sp co false) args) ls (sentence sp co its).
Proof.
  intros br t sp co args its H. destruct (shows_written br t sp co) as (_ & W). specialize (W args its H false).
  eexists. assert (LA : lead_all sp false its = []) by (destruct its; reflexivity). rewrite LA in W. exact W.
Qed.
Print Assumptions C27_spaced.

(** Every value of nested containers, tuples, numbers and strings is shown. *)
Theorem C27_every_value : forall br t sp co args,
  t_base t = 0 \/ 2 <= t_base t <= 36 -> printable_all args ->
  exists its ls, shows_all br t args its
    /\ settles (fun n => write n (stack br t sp co false) args) ls (sentence sp co its).
Proof.
  intros br t sp co args B P. destruct (printable_all_shows br t args B P) as (its & H).
  destruct (C27_spaced br t sp co args its H) as (ls & W). eauto.
Qed.
Print Assumptions C27_every_value.

(** Without glued text: exactly one separator between neighbours, none at the ends,
    at the top and inside every group. *)
Theorem C27_one_separator : forall sp co its,
  Forall (fun x => glued_left x = false /\ glued_right x = false) its ->
  sentence sp co its = separated sp (map (render sp co) its)
  /\ forall b e, render sp co (Group b its e) = b ++ separated sp (map (render sp co) its) ++ e.
Proof.
  intros sp co its H. split; [apply sentence_separated, H|]. intros b e. cbn [render].
  change (with_gaps sp (map (fun y => (y, render sp co y)) its)) with (sentence sp co its).
  rewrite sentence_separated by assumption. reflexivity.
Qed.
Print Assumptions C27_one_separator.

(** Words that do not contain the separator can be cut out of the text again. *)
Theorem C27_words : forall t d co args ws,
  args <> [] -> Forall2 (fun a w => shows false t a (Word w) /\ ~ In d w) args ws ->
  exists ls out, settles (fun n => write n (stack false t [d] co false) args) ls out /\ cut d out = ws.
Proof.
  intros t d co args ws N H.
  assert (S : shows_all false t args (map Word ws)).
  { clear N. induction H as [|a w args ws (Hs & _) _ IH]; constructor; assumption. }
  destruct (C27_spaced false t [d] co args _ S) as (ls & W). exists ls, (sentence [d] co (map Word ws)). split; [exact W|].
  rewrite sentence_separated.
  - rewrite map_map. cbn [render]. rewrite map_id. apply cut_separated.
    + intros ->. inversion H; subst. contradiction.
    + clear -H. induction H as [|a w args ws (_ & Hn) _ IH]; constructor; assumption.
  - apply Forall_forall. intros x I. apply in_map_iff in I. destruct I as (w & <- & _). auto.
Qed.
Print Assumptions C27_words.

Definition i32 (x : Z) : arg := AInt 32 true x.
Definition entry (k v : arg) : arg := ABatch [k; AColon; v].
(** The test "{[(0 1)] [(2 3) (4 5)]}", a map, and the same set without braces. *)
Definition nested : arg := ASeq true true [ASeq false true [ATuple [i32 0; i32 1]];
                                           ASeq false true [ATuple [i32 2; i32 3]; ATuple [i32 4; i32 5]]].
Example C27_case : printable_all [nested; entry (i32 7) (i32 8)]
  /\ omap snd (write 40 (stack true plain_text [32] [58] false) [nested; entry (i32 7) (i32 8)])
     = Ok [123; 91; 40; 48; 32; 49; 41; 93; 32; 91; 40; 50; 32; 51; 41; 32; 40; 52; 32; 53; 41; 93; 125; 32; 55; 58; 56]
  /\ omap snd (write 40 (stack false plain_text [32] [58] false) [nested; ARaw [33]; i32 9])
     = Ok [50; 32; 49; 32; 48; 32; 49; 32; 50; 32; 50; 32; 51; 32; 52; 32; 53; 33; 57].
Proof.
  split.
  - cbn. unfold in_ity. cbn. lia.
  - split; vm_compute; reflexivity.
Qed.

(** * C28: flags and scopes *)
(** Each bit of the flags is decided by the last manipulator concerning it, in the
    order of writing; a group manipulator concerns the bits of its group only; the
    data and the nesting of the arguments play no role. *)
Theorem C28_flags : forall fuel t args ls s,
  Forall good_manip (flat_map manips args) ->
  write fuel [LText t] args = Ok (ls, s) ->
  exists t', ls = [LText t']
    /\ t_base t' = t_base t /\ t_precision t' = t_precision t
    /\ forall i, 0 <= i < 32 ->
       Z.testbit (t_flags t') i
       = fold_left (fun b m => match m with
                               | MSetf f v => if Z.testbit f i then v else b
                               | MSetg _ f => if (5 <=? i) && (i <=? 7) then Z.testbit f i else b
                               | _ => b
                               end) (flat_map manips args) (Z.testbit (t_flags t) i).
Proof. intros fuel t args ls s G E. destruct (write_tracks fuel t args ls s G E) as (t' & -> & M). exists t'. split; [reflexivity|exact M]. Qed.
Print Assumptions C28_flags.

(** Whatever is written, the nesting level and all parameters of every format of
    the composition are back at the end. *)
Theorem C28_levels : forall fuel ls args ls' s,
  no_level_all args -> Forall level_ok ls ->
  write fuel ls args = Ok (ls', s) -> map lasting ls' = map lasting ls.
Proof. intros. eapply write_keeps; eassumption. Qed.
Print Assumptions C28_levels.

(** The flags that have names are independent of each other: setting or clearing one
    of them changes what is asked about this one only. *)
Definition named : list Z :=
  [flag_boolalpha; flag_uppercase; flag_showbase; flag_showpos; flag_showpoint; flag_fixed; flag_scientific; flag_hexfloat].
Lemma has_one x k : 0 <= k -> FormatModel.has_bits x (2 ^ k) = Z.testbit x k.
Proof.
  intro K. unfold FormatModel.has_bits. apply Bool.eq_iff_eq_true. rewrite Z.eqb_eq. split; intro H.
  - apply (f_equal (fun z => Z.testbit z k)) in H. rewrite Z.land_spec, Z.pow2_bits_true, andb_true_r in H by lia. exact H.
  - apply Z.bits_inj'. intros i I. rewrite Z.land_spec. destruct (Z.eq_dec i k) as [->|N].
    + rewrite Z.pow2_bits_true, andb_true_r by lia. exact H.
    + rewrite Z.pow2_bits_false by lia. apply andb_false_r.
Qed.
Lemma named_bit f : In f named -> exists k, 0 <= k < 8 /\ f = 2 ^ k.
Proof. intro I. repeat (destruct I as [<-|I]); [exists 0|exists 1|exists 2|exists 3|exists 4|exists 5|exists 6|exists 7|easy]; split; lia || reflexivity. Qed.
Lemma small_cases (k : Z) (P : Z -> Prop) : 0 <= k < 8 -> P 0 -> P 1 -> P 2 -> P 3 -> P 4 -> P 5 -> P 6 -> P 7 -> P k.
Proof.
  intros K. intros. destruct (Z.eq_dec k 0) as [->|]; [assumption|]. destruct (Z.eq_dec k 1) as [->|]; [assumption|].
  destruct (Z.eq_dec k 2) as [->|]; [assumption|]. destruct (Z.eq_dec k 3) as [->|]; [assumption|].
  destruct (Z.eq_dec k 4) as [->|]; [assumption|]. destruct (Z.eq_dec k 5) as [->|]; [assumption|].
  destruct (Z.eq_dec k 6) as [->|]; [assumption|]. replace k with 7 by lia. assumption.
Qed.
Theorem C28_independent : NoDup named /\ forall t f g b, In f named -> In g named ->
  getf (if b : bool then setf t f else unsetf t f) g = if f =? g then b else getf t g.
Proof.
  split.
  { unfold named. repeat (constructor; [intro H; repeat destruct H as [H|H]; easy|]). constructor. }
  intros t f g b F G. destruct (named_bit f F) as (i & I & ->), (named_bit g G) as (j & J & ->).
  unfold getf. rewrite !has_one by lia. destruct b; cbn [setf unsetf with_flags t_flags].
  - rewrite Z.lor_spec. destruct (Z.eqb_spec (2 ^ i) (2 ^ j)) as [E|N].
    + rewrite E, Z.pow2_bits_true by lia. apply orb_true_r.
    + rewrite Z.pow2_bits_false by congruence. apply orb_false_r.
  - unfold FormatModel.clear_bits. rewrite Z.land_spec.
    generalize (Z.testbit (t_flags t) j). intro x. clear F G.
    apply (small_cases i (fun i => x && Z.testbit (2 ^ 32 - 1 - 2 ^ i) j = (if 2 ^ i =? 2 ^ j then false else x)) I);
      apply (small_cases j (fun j => x && Z.testbit (2 ^ 32 - 1 - 2 ^ _) j = (if 2 ^ _ =? 2 ^ j then false else x)) J);
      destruct x; reflexivity.
Qed.
Print Assumptions C28_independent.

(** Choosing a notation of floating point numbers replaces the others and nothing else. *)
Theorem C28_notation : forall t f, In f [flag_fixed; flag_scientific; flag_hexfloat] ->
  exists t', setg t f 0 = Ok t' /\ forall g, In g named ->
    getf t' g = if existsb (Z.eqb g) [flag_fixed; flag_scientific; flag_hexfloat] then f =? g else getf t g.
Proof.
  intros t f F. eexists. split; [reflexivity|]. intros g G. unfold getf at 1. destruct (named_bit g G) as (j & J & ->).
  rewrite has_one by lia. cbn [with_flags t_flags]. unfold FormatModel.set_bits, FormatModel.clear_bits.
  rewrite Z.lor_spec, !Z.land_spec. unfold getf. rewrite has_one by lia. generalize (Z.testbit (t_flags t) j). intro x.
  clear G. repeat (destruct F as [<-|F]); [..|easy]; 
    revert x; refine (small_cases j (fun j => forall x, _ = _) J _ _ _ _ _ _ _ _); intro x; destruct x; reflexivity.
Qed.
Print Assumptions C28_notation.
Example C28_independent_case : getf (setf plain_text flag_showpos) flag_showpos = true /\ getf (setf plain_text flag_showpos) flag_uppercase = false
  /\ omap (fun t => getf t flag_fixed) (setg (setf plain_text flag_hexfloat) flag_fixed 0) = Ok true.
Proof. repeat split. Qed.

(** A group of flags other than the first is read outside of the table. *)
Theorem C28_group_undefined : forall t g f, g <> 0 -> write 5 [LText t] [AManip (MSetg g f)] = UB.
Proof.
  intros t g f N. assert (setg t f g = UB) as E.
  { unfold setg. destruct (Z.ltb_spec g 0); [now destruct (nth_error group_bits (Z.to_nat g))|].
    replace (nth_error group_bits (Z.to_nat g)) with (@None Z); [reflexivity|]. symmetry. apply nth_error_None. cbn. lia. }
  cbn -[setg]. now rewrite E.
Qed.
Print Assumptions C28_group_undefined.
Example C28_group_case : write 5 [LText plain_text] [AManip (MSetg 1 32)] = UB /\
  write 5 [LText plain_text] [AManip (MSetg 0 32)] = Ok ([LText {| t_flags := 32; t_base := 10; t_precision := 6 |}], []).
Proof. split; reflexivity. Qed.

(** Finding: a scope does not restore the flags. *)
Theorem C28_scope_restores_flags_refuted : exists args t ls s,
  write 10 [LText t] [ATuple args] = Ok (ls, s) /\ ls <> [LText t].
Proof.
  exists [AManip (MSetf 1 true); ABool true], plain_text, [LText {| t_flags := 1; t_base := 10; t_precision := 6 |}], [116; 114; 117; 101].
  split; [vm_compute; reflexivity|discriminate].
Qed.
Print Assumptions C28_scope_restores_flags_refuted.

(** fixed, then scientific replaces it and keeps showbase; inside a tuple. *)
Example C28_case : let args := [AManip (MSetf 4 true); ATuple [AManip (MSetg 0 32); i32 5]; AManip (MSetg 0 64); AManip (MSetf 1 false)] in
  Forall good_manip (flat_map manips args)
  /\ write 10 [LText plain_text] args = Ok ([LText {| t_flags := 68; t_base := 10; t_precision := 6 |}], [53])
  /\ no_level_all args /\ Forall level_ok [LIndented 32 10 2 0 false; LSpaced [32] [58] false; LText plain_text]
  /\ omap (fun p => map lasting (fst p)) (write 20 [LIndented 32 10 2 0 false; LSpaced [32] [58] false; LText plain_text] [ATuple [i32 5; ATuple [i32 6]]])
     = Ok [LIndented 32 10 2 0 false; LSpaced [32] [58] false; LText plain_text].
Proof.
  split; [repeat constructor; cbn; lia|]. split; [vm_compute; reflexivity|]. split; [cbn; tauto|].
  split; [repeat constructor; cbn; lia|]. vm_compute. reflexivity.
Qed.

(** * C75: indented text *)
(** From a fresh format the text is, up to the first line break, the lines of the
    arguments, each indented by [count] times its nesting depth. *)
Theorem C75_indented : forall t fill endl count a l,
  t_base t = 0 \/ 2 <= t_base t <= 36 -> 0 <= count ->
  starts_line a = true -> printable_all (a :: l) ->
  height_all (a :: l) < 2 ^ 64 -> count * height_all (a :: l) < 2 ^ 64 ->
  exists s, settles (fun n => write n [LIndented fill endl count 0 false; LText t] (a :: l))
                    [LIndented fill endl count 0 true; LText t] s
    /\ endl :: s = flat_map (fun p => match p with
                                      | Line d x => [endl] ++ repeat fill (Z.to_nat (count * d)) ++ x
                                      | Same x => x
                                      end) (flat_map (lay t 0) (a :: l)).
Proof.
  intros t fill endl count a l B C SL P H1 H2.
  destruct (fresh_laid t fill endl count B C a l SL P) as (s & W & E).
  { unfold fits. split; [lia|]. split; assumption. }
  exists s. split; [exact W|]. rewrite E. apply flat_map_ext. intros []; reflexivity.
Qed.
Print Assumptions C75_indented.

(** Later values: at any level. *)
Theorem C75_any_level : forall t fill endl count d l,
  t_base t = 0 \/ 2 <= t_base t <= 36 -> 0 <= count -> printable_all l ->
  0 <= d -> d + height_all l < 2 ^ 64 -> count * (d + height_all l) < 2 ^ 64 ->
  settles (fun n => write n [LIndented fill endl count d true; LText t] l)
          [LIndented fill endl count d true; LText t]
          (flat_map (fun p => match p with
                              | Line e x => [endl] ++ repeat fill (Z.to_nat (count * e)) ++ x
                              | Same x => x
                              end) (flat_map (lay t d) l)).
Proof.
  intros t fill endl count d l B C P D H1 H2.
  assert (W := laid_list t fill endl count C l ltac:(apply Forall_forall; intros; apply all_laid; assumption) d P).
  erewrite flat_map_ext; [apply W; split; [lia|split; assumption]|]. intros []; reflexivity.
Qed.
Print Assumptions C75_any_level.

(** Finding: the size of a container is preceded by a blank line, because the size
    is itself a nested value. *)
Theorem C75_size_line_refuted : exists s,
  omap snd (write 20 [LIndented 32 10 2 0 true; LText plain_text] [ASeq false true [i32 7]]) = Ok s
  /\ s = [10; 32; 32; 10; 32; 32; 32; 32; 49; 10; 32; 32; 55].
Proof. eexists. split; [vm_compute; reflexivity|reflexivity]. Qed.
Print Assumptions C75_size_line_refuted.

(** 1, (2, (3)): three depths. *)
Example C75_case : starts_line (i32 1) = true /\ printable_all [i32 1; ATuple [i32 2; ATuple [i32 3]]]
  /\ flat_map (lay plain_text 0) [i32 1; ATuple [i32 2; ATuple [i32 3]]]
     = [Line 0 [49]; Line 0 []; Line 1 [50]; Line 1 []; Line 2 [51]]
  /\ omap snd (write 20 [LIndented 32 10 2 0 false; LText plain_text] [i32 1; ATuple [i32 2; ATuple [i32 3]]])
     = Ok [49; 10; 10; 32; 32; 50; 10; 32; 32; 10; 32; 32; 32; 32; 51].
Proof.
  split; [reflexivity|]. split.
  - cbn. unfold in_ity. cbn. lia.
  - split; vm_compute; reflexivity.
Qed.

(** * C76: manipulators of the base *)
(** Flag manipulators change the output of the following arguments. *)
Theorem C76_boolalpha : forall t b,
  is_flags (t_flags t) ->
  settles (fun n => omap (fun p => ([], snd p)) (write n [LText t] [AManip (MSetf 1 true); ABool b])) []
          (if b then [116; 114; 117; 101] else [102; 97; 108; 115; 101])
  /\ settles (fun n => omap (fun p => ([], snd p)) (write n [LText t] [AManip (MSetf 1 false); ABool b])) []
          [if b then 49 else 48].
Proof.
  intros t b F.
  assert (G1 : getf (setf t 1) flag_boolalpha = true).
  { unfold getf, has_bits, setf, with_flags, t_flags at 1, flag_boolalpha. apply Z.eqb_eq. apply Z.bits_inj'. intros i I.
    rewrite Z.land_spec, Z.lor_spec. destruct (Z.testbit 1 i), (Z.testbit (t_flags t) i); reflexivity. }
  assert (G2 : getf (unsetf t 1) flag_boolalpha = false).
  { unfold getf, has_bits, unsetf, with_flags, t_flags at 1, flag_boolalpha. apply Z.eqb_neq. intro E.
    assert (E' := f_equal (fun x => Z.testbit x 0) E). cbv beta in E'.
    rewrite Z.land_spec, clear_bits_spec in E' by (unfold is_flags; lia).
    change (Z.testbit 1 0) with true in E'. rewrite andb_true_r, andb_false_r in E'. discriminate. }
  split; exists 3%nat; intros fuel L; destruct fuel as [|fuel]; [lia| |lia|]; cbn -[getf setf unsetf].
  - rewrite G1. destruct b; reflexivity.
  - rewrite G2. destruct b; reflexivity.
Qed.
Print Assumptions C76_boolalpha.

(** hex, octal, decimal and detect_base are manipulators without an effect. *)
Theorem C76_base_ignored : forall fuel b ls args,
  write (S fuel) ls (AManip (MBase b) :: args) = write (S fuel) ls args.
Proof.
  intros fuel b ls args. unfold write. cbn [each].
  assert (M : manipulate (MBase b) ls = Ok ls).
  { unfold manipulate. cbn [is_flag_manip andb]. induction ls as [|l ls IH]; cbn [manip_all]; [reflexivity|].
    replace (manip_one (MBase b) l) with (Ok l) by (destruct l; reflexivity). cbn [bind]. rewrite IH. reflexivity. }
  assert (W : write_impl (S fuel) 0 ls (AManip (MBase b)) = Ok (ls, []))
    by (cbn [write_impl skipn firstn]; rewrite M; reflexivity).
  rewrite W. unfold ret. cbn [bind app]. destruct (each (write_impl (S fuel) 0) ls args) as [(ls2 & s2)| | | |]; reflexivity.
Qed.
Print Assumptions C76_base_ignored.

(** Finding: after hex, 255 is still written in decimal. *)
Theorem C76_hex_refuted :
  ~ (forall x, 0 <= x < 2 ^ 31 -> omap snd (write 5 [LText plain_text] [AManip (MBase 16); i32 x])
               = int_encode 32 true {| f_base := 16; f_uppercase := false; f_showbase := false; f_showpos := false |} x).
Proof. intro H. specialize (H 255 ltac:(lia)). vm_compute in H. discriminate. Qed.
Print Assumptions C76_hex_refuted.

Example C76_case : omap snd (write 5 [LText plain_text] [AManip (MSetf 1 true); ABool true; AManip (MSetf 1 false); ABool true])
  = Ok [116; 114; 117; 101; 49].
Proof. vm_compute. reflexivity. Qed.
