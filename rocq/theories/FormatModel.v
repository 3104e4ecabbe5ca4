(** Model of writing arguments through composed formats:
    io/io.hpp, io/core/{read_write,batch,manipulator}.hpp, io/format/{apply_format,composed_format}.hpp,
    io/argument/{byte,byte_span,empty,range,size,tuple}.hpp, io/utility/{raw,repeat}.hpp,
    io/format/text/text.hpp, settings/flags.hpp, arithmetic/boolean.hpp and
    decorator/{adjusted,braced,escaped,indented,spaced}.hpp.

    Simplifications: all writes succeed (the output is the list of written
    characters, as with the string device); the overload chosen by the compiler
    is selected by the constructor of the argument; combinations that do not
    compile are [UB].  Owning strings are containers of characters for [braced]
    and are modelled by [ASeq]; [AStr] is a literal or a string view. *)
From Coq Require Import ZArith List Bool.
From Verif Require Import Outcome IntTextModel.
Import ListNotations.
Local Open Scope Z_scope.

(** ** Flags *)
(** settings/flags.hpp:17-26 *)
Definition flag_boolalpha : Z := 1.
Definition flag_uppercase : Z := 2.
Definition flag_showbase : Z := 4.
Definition flag_showpos : Z := 8.
Definition flag_showpoint : Z := 16.
Definition flag_fixed : Z := 32.
Definition flag_scientific : Z := 64.
Definition flag_hexfloat : Z := 128.
(** settings/flags.hpp:32-36: the only group is 0; another index is out of bounds. *)
Definition group_bits : list Z := [Z.lor (Z.lor flag_fixed flag_scientific) flag_hexfloat].

(** numeric/bit/operation.hpp:26-44; [~bits] of a 32-bit unsigned number. *)
Definition has_bits (x bits : Z) : bool := Z.land x bits =? bits.
Definition clear_bits (x bits : Z) : Z := Z.land x (2 ^ 32 - 1 - bits).
Definition set_bits (x mask bits : Z) : Z := Z.lor (clear_bits x mask) (Z.land bits mask).

(** text.hpp:48-79 *)
Record text := { t_flags : Z; t_base : Z; t_precision : Z }.
Definition with_flags (t : text) (x : Z) : text := {| t_flags := x; t_base := t_base t; t_precision := t_precision t |}.
Definition getf (t : text) (flag : Z) : bool := has_bits (t_flags t) flag.                       (* 60-62 *)
Definition setf (t : text) (flag : Z) : text := with_flags t (Z.lor (t_flags t) flag).            (* 64-66 *)
Definition unsetf (t : text) (flag : Z) : text := with_flags t (clear_bits (t_flags t) flag).     (* 68-70 *)
Definition setg (t : text) (flag group : Z) : outcome text :=                                     (* 72-74 *)
  match nth_error group_bits (Z.to_nat group) with
  | Some mask => if group <? 0 then UB else Ok (with_flags t (set_bits (t_flags t) mask flag))
  | None => UB
  end.

(** The settings used by integers (integer_write.hpp:49-75, uitoa.hpp). *)
Definition int_fmt (t : text) : fmt :=
  {| f_base := t_base t; f_uppercase := getf t flag_uppercase;
     f_showbase := getf t flag_showbase; f_showpos := getf t flag_showpos |}.

(** ** Arguments *)
(** text.hpp:98-106, settings/base.hpp:15-17, core/manipulator.hpp:19-22 *)
Inductive manip :=
| MSetf (flag : Z) (value : bool)
| MSetg (group flag : Z)
| MBase (base : Z)
| MLevel (deeper : bool).

Inductive arg :=
| ABool (b : bool)
| AInt (w : Z) (sg : bool) (x : Z)              (* an integer of a type of width w *)
| AChar (c : Z)
| AStr (s : list Z)                             (* string literal or string_view *)
| ABytes (range : bool) (s : list Z)            (* span of characters; int_string is not a range *)
| ARepeat (c n : Z)                             (* utility/repeat.hpp *)
| AEsc (s : list Z)                             (* escaped.hpp:39-42 *)
| ARaw (s : list Z)                             (* utility/raw.hpp around a character or a span *)
| AColon                                        (* core/manipulator.hpp:37 *)
| ASize (n : Z)                                 (* argument/size.hpp with size_t *)
| ATuple (l : list arg)                         (* std::tuple, std::pair *)
| AIoTuple (before : list Z) (l : list arg) (after : list Z)
                                                (* user-defined is_io_tuple class whose write_final
                                                   writes [before], the members, [after] *)
| ASeq (assoc dynamic : bool) (l : list arg)    (* Container *)
| ARange (l : list arg)                         (* range that is not a container *)
| ABatch (l : list arg)                         (* core/batch.hpp; {key, colon, value} for elements of a map *)
| AManip (m : manip).

(* The concept Range (C++20) as it holds for the arguments above. *)
Definition is_range (a : arg) : bool :=
  match a with
  | AStr _ | ABytes true _ | ASeq _ _ _ | ARange _ => true
  | _ => false
  end.

(** ** Formats *)
Inductive layer :=
| LSpaced (space colon : list Z) (separate : bool)                 (* spaced.hpp:17-38 *)
| LIndented (fill endl count level : Z) (indent : bool)             (* indented.hpp:14-23 *)
| LBraced                                                           (* braced.hpp:15-17 *)
| LAdjusted (width : Z) (place : Z) (fill : Z)                      (* adjusted.hpp:15-34, place = adjust_to *)
| LEscaped                                                          (* escaped.hpp:14-16 *)
| LText (t : text).

(** adjusted.hpp:36-49 *)
Definition adjustment (width place size : Z) : Z * Z :=
  if width <=? size then (0, 0)
  else
    let size := width - size in
    let p := if negb (Z.land place 2 =? 0) then (size / 2, size - size / 2) else (0, size) in
    if negb (Z.land place 1 =? 0) then (snd p, fst p) else p.

(** escaped.hpp:20-37; 0 when the character is not escaped. *)
Definition escape (c : Z) : Z :=
  if c =? 0 then 48
  else if c =? 7 then 97
  else if c =? 8 then 98
  else if c =? 9 then 116
  else if c =? 10 then 110
  else if c =? 11 then 118
  else if c =? 12 then 102
  else if c =? 13 then 114
  else if c =? 34 then 34
  else if c =? 39 then 39
  else if c =? 92 then 92
  else 0.

(** escaped.hpp:44-56, all writes succeeding. *)
Fixpoint write_escaped (s : list Z) : list Z :=
  match s with
  | [] => []
  | c :: s => (if negb (escape c =? 0) then [92; escape c] else [c]) ++ write_escaped s
  end.

(** encode(fmt, x), or x unchanged when there is no overload (apply_format.hpp:23-29). *)
Definition encode (l : layer) (a : arg) : outcome (layer * arg) :=
  match l with
  | LSpaced sp co sep =>
      match a with
      | ARaw _ => Ok (LSpaced sp co false, a)                                        (* spaced.hpp:65-69 *)
      | AColon => Ok (LSpaced sp co false, ABatch [AColon; AStr co])                 (* 71-75 *)
      | _ =>                                                                         (* 54-63 *)
          if sep then Ok (l, ABatch [ABytes true sp; a])
          else Ok (LSpaced sp co true, ABatch [ABytes true []; a])
      end
  | LIndented fill endl count level indent =>
      match a with
      | ARaw _ => Ok (l, a)                                                          (* indented.hpp:40-43 *)
      | _ =>
          if is_range a then Ok (l, a)
          else if negb indent
          then Ok (LIndented fill endl count level true, ABatch [ARaw []; ARepeat 0 0; a])   (* 28-30 *)
          else Ok (l, ABatch [ARaw [endl]; ARepeat fill ((count * level) mod 2 ^ 64); a])    (* 32-36 *)
      end
  | LBraced =>
      match a with
      | ASeq true _ xs => Ok (l, ABatch [AChar 123; ARange xs; AChar 125])            (* braced.hpp:19-23 *)
      | ASeq false _ xs => Ok (l, ABatch [AChar 91; ARange xs; AChar 93])             (* 25-29 *)
      | ATuple _ | AIoTuple _ _ _ => Ok (l, ABatch [AChar 40; a; AChar 41])           (* 31-35 *)
      | _ => Ok (l, a)
      end
  | LAdjusted width place fill =>
      match a with
      | AStr s | ABytes _ s =>                                                        (* adjusted.hpp:51-56 *)
          let p := adjustment width place (Z.of_nat (length s)) in
          Ok (l, ABatch [ARepeat fill (fst p); a; ARepeat fill (snd p)])
      | AChar _ =>                                                                    (* 58-62 *)
          let p := adjustment width place 1 in
          Ok (l, ABatch [ARepeat fill (fst p); a; ARepeat fill (snd p)])
      | _ => Ok (l, a)
      end
  | LEscaped =>
      match a with
      | AChar c => Ok (l, ABatch [AChar 39; AEsc [c]; AChar 39])                       (* escaped.hpp:60-62 *)
      | AStr s => Ok (l, ABatch [AChar 34; AEsc s; AChar 34])                          (* 64-68 *)
      | _ => Ok (l, a)
      end
  | LText t =>
      match a with
      | ABool b =>                                                                    (* boolean.hpp:20-28 *)
          Ok (l, ABytes true (if getf t flag_boolalpha
                              then if b then [116; 114; 117; 101] else [102; 97; 108; 115; 101]
                              else [if b then 49 else 48]))
      | AInt w sg x => do s <- int_encode w sg (int_fmt t) x; Ok (l, ABytes false s)   (* integer_write.hpp:49-75 *)
      | AStr s => Ok (l, ABytes true s)                                               (* text.hpp:85-89 *)
      | _ => Ok (l, a)
      end
  end.

(** manipulate(fmt, m) of one format: manipulator.hpp:17, spaced.hpp:77-80,
    indented.hpp:45-50, text.hpp:134-145.  The flag manipulators compile for the
    [text] format only. *)
Definition manip_one (m : manip) (l : layer) : outcome layer :=
  match m, l with
  | MLevel deeper, LSpaced sp co _ => Ok (LSpaced sp co (negb deeper))
  | MLevel deeper, LIndented fill endl count level indent =>
      Ok (LIndented fill endl count ((level + (if deeper then 1 else -1)) mod 2 ^ 64) (if deeper then true else indent))
  | MLevel _, _ => Ok l
  | MSetf f v, LText t => Ok (LText (if v then setf t f else unsetf t f))
  | MSetg g f, LText t => do t' <- setg t f g; Ok (LText t')
  | MBase _, _ => Ok l
  | _, _ => UB
  end.

(** composed_format.hpp:54-58.  A flag manipulator applied to a composed format
    is ambiguous with text.hpp:134-145 and does not compile. *)
Fixpoint manip_all (m : manip) (ls : list layer) : outcome (list layer) :=
  match ls with
  | [] => Ok []
  | l :: ls => do l' <- manip_one m l; do ls' <- manip_all m ls; Ok (l' :: ls')
  end.
Definition is_flag_manip (m : manip) : bool := match m with MSetf _ _ | MSetg _ _ => true | _ => false end.
Definition manipulate (m : manip) (ls : list layer) : outcome (list layer) :=
  if is_flag_manip m && (1 <? Z.of_nat (length ls)) then UB else manip_all m ls.

(** Replace the element at position [k]. *)
(* A helper without lines in /repo (C++20: assignment to one of the formats). *)
Fixpoint put {A} (k : nat) (x : A) (l : list A) : list A :=
  match l, k with
  | [], _ => []
  | _ :: l, O => x :: l
  | y :: l, S k => y :: put k x l
  end.

(** The state of all formats of the composition and the text written. *)
(* A device and the formats after write returned true, io.hpp:35-38 *)
Definition result := outcome (list layer * list Z).
Definition ret (ls : list layer) (s : list Z) : result := Ok (ls, s).

(** [... && f(x)] over the parts, all of them succeeding. *)
(* Fold expressions at io.hpp:35-38 and argument/tuple.hpp:31-35 *)
Fixpoint each (f : list layer -> arg -> result) (ls : list layer) (l : list arg) : result :=
  match l with
  | [] => ret ls []
  | a :: l => do (ls1, s1) <- f ls a; do (ls2, s2) <- each f ls1 l; ret ls2 (s1 ++ s2)
  end.

(** nested_scope_guard (manipulator.hpp:24-35) around [f]. *)
Definition guarded (ls : list layer) (f : list layer -> result) : result :=
  do ls1 <- manipulate (MLevel true) ls;
  do (ls2, s) <- f ls1;
  do ls3 <- manipulate (MLevel false) ls2;
  ret ls3 s.

(** write_final of an argument; [rec] writes a nested argument with all formats
    of the composition, so that write(od, fmt, xs...) of io.hpp:35-38 is [each rec]. *)
Definition write_final (rec : list layer -> arg -> result) (ls : list layer) (a : arg) : result :=
  match a with
  | ABytes _ s => ret ls s                                        (* byte_span.hpp:14-18, integer_write.hpp:42-45 *)
  | AChar c => ret ls [c]                                         (* byte.hpp:19-22 *)
  | ARepeat c m => ret ls (repeat c (Z.to_nat m))                 (* repeat.hpp:23-28 *)
  | AEsc s => ret ls (write_escaped s)                            (* escaped.hpp:44-56 *)
  | ARaw s => ret ls s                                            (* raw.hpp:21-24 *)
  | AColon | AManip _ => ret ls []                                (* empty.hpp:13-17 *)
  | ASize m => guarded ls (fun ls => rec ls (AInt 64 false m))    (* size.hpp:21-25 *)
  | ATuple l => guarded ls (fun ls => each rec ls l)              (* tuple.hpp:31-35 *)
  | AIoTuple b l e => do (ls', s) <- each rec ls l; ret ls' (b ++ s ++ e)
  | ASeq _ dynamic l =>                                           (* range.hpp:39-49 *)
      guarded ls (fun ls =>
        do (ls1, s1) <- (if dynamic : bool then rec ls (ASize (Z.of_nat (length l))) else ret ls []);
        do (ls2, s2) <- each rec ls1 l;
        ret ls2 (s1 ++ s2))
  | ARange l => guarded ls (fun ls => each rec ls l)
  | ABool _ | AInt _ _ _ | AStr _ | ABatch _ => UB                (* do not compile at this stage *)
  end.

(** batch.hpp:22-30, read_write.hpp:19-27 *)
Definition write_pre_final (rec : list layer -> arg -> result) (ls : list layer) (a : arg) : result :=
  match a with
  | ABatch l => each (write_final rec) ls l
  | AIoTuple _ _ _ => guarded ls (fun ls => write_final rec ls a)
  | _ => write_final rec ls a
  end.

(** [write_impl n k ls a]: write [a] with the formats from position [k] of the
    composition [ls]; nested arguments are written with all of [ls] again.
    read_write.hpp:40-78, batch.hpp:42-60, composed_format.hpp:33-50. *)
Fixpoint write_impl (fuel : nat) (k : nat) (ls : list layer) (a : arg) : result :=
  match fuel with
  | O => NoFuel
  | S n =>
      match a with
      | AManip m =>                                                     (* read_write.hpp:55-60 *)
          do tl <- manipulate m (skipn k ls); ret (firstn k ls ++ tl) []
      | ABatch l => each (write_impl n k) ls l                          (* batch.hpp:47-60 *)
      | _ =>
          match nth_error ls k with
          | None => UB
          | Some l =>
              do (l', a') <- encode l a;
              let ls' := put k l' ls in
              if (S k <? length ls)%nat then write_impl n (S k) ls' a'  (* composed_format.hpp:35-41 *)
              else write_pre_final (write_impl n 0) ls' a'              (* read_write.hpp:42-45 *)
          end
      end
  end.

(** write(od, fmt, args...), io.hpp:35-38 *)
Definition write (fuel : nat) (ls : list layer) (args : list arg) : result := each (write_impl fuel 0) ls args.

(** The formats of the tests. *)
(* text{} as in tests/io/format/text/skipws.cpp:20 *)
Definition plain_text : text := {| t_flags := 0; t_base := 10; t_precision := 6 |}.
