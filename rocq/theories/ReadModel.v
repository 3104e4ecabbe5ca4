(** Model of reading arguments from text with whitespace skipped, i.e. through the
    composition skipws >>= text on a memory device:
    io/format/text/skipws.hpp, io/utility/skip.hpp, io/core/{read_write,batch,parser_executor}.hpp,
    io/format/text/parser/{arithmetic,string}.hpp, io/argument/{byte,range,size,tuple}.hpp and io/io.hpp.

    Simplifications: the type of the argument selects the overload; the old value of
    an argument is not kept when reading fails (the result is just "false"); the
    characters of std::string are bytes; a vector longer than [2 ^ 63 - 1] elements
    makes resize() throw, shorter ones can always be allocated. *)
From Coq Require Import ZArith List Bool.
From Verif Require Import Outcome StringModel IntTextModel FormatModel FloatTextModel DeviceModel.
Import ListNotations.
Local Open Scope Z_scope.

(** The types of arguments. *)
(* The overloads of io/argument/*.hpp and parser/*.hpp, cited at [read_arg] below (C++20). *)
Inductive rtype :=
| TInt (w : Z) (sg : bool)          (* integers that are not characters *)
| TBool
| TChar
| TStr (capacity : nat)             (* std::string with the capacity it has before *)
| TTuple (l : list rtype)           (* std::tuple, std::pair *)
| TArray (n : nat) (t : rtype)      (* container of static size, or a range *)
| TVector (t : rtype).              (* std::vector *)

(** What is read. *)
(* Contents of objects of the types above (C++20 objects). *)
Inductive value :=
| VInt (x : Z) | VBool (b : bool) | VChar (c : Z) | VStr (s : list Z) | VList (l : list value).

(** A device and the value, unless reading failed (returned false). *)
(* The result of read at io/core/read_write.hpp:29-50. *)
Definition got := outcome (memory * option value).

(** skipws.hpp:19-23 and skip.hpp:19-26: ws(id) *)
Definition skip_space (m : memory) : outcome memory := skip (S (length (m_data m))) (PFun is_space) m.

(** parser_executor.hpp:29-35 with [parse] running the parser on what is available;
    a memory device offers all the remaining input at once. *)
Definition execute {A} (parse : list (list Z) -> outcome (nat * option A)) (wrap : A -> value) (m : memory) : got :=
  let s := mem_input m in
  do (n, v) <- parse (match s with [] => [] | _ => [s] end);
  do m1 <- mem_move m (Z.of_nat n);
  Ok (m1, option_map wrap v).

(** parser/string.hpp:15-28: [last] characters are in the string already. *)
Fixpoint read_till_string (fuel : nat) (p : pred) (m : memory) (stored : list Z) (size : nat) : outcome (memory * list Z) :=
  match fuel with
  | O => NoFuel
  | S f =>
      do (m1, xs) <- till_buffered 2 p m size;                            (* 21-22 *)
      if (length xs <? size)%nat then Ok (m1, stored ++ xs)               (* 23-26 *)
      else let total := (length stored + size)%nat in                     (* 18 *)
           read_till_string f p m1 (stored ++ xs) total
  end.
Definition read_string (capacity : nat) (m : memory) : outcome (memory * list Z) :=
  read_till_string (S (length (m_data m))) (PFun is_space) m [] (Nat.max 16 capacity).

(** [read(id, fmt, x1) && ... && read(id, fmt, xn)] (io.hpp:45-48, tuple.hpp:23-27). *)
Definition push (v : value) (r : memory * option (list value)) : memory * option (list value) :=
  (fst r, option_map (cons v) (snd r)).
Definition as_list (r : memory * option (list value)) : memory * option value := (fst r, option_map VList (snd r)).

Section Read.
  Variable t : text.

  (** Reading an argument of the type: read_write.hpp:73-78, batch.hpp:53-55. *)
  Fixpoint read_arg (ty : rtype) (m : memory) : got :=
    (* range.hpp:51-57 *)
    let read_range ty := fix loop (n : nat) (m : memory) : outcome (memory * option (list value)) :=
      match n with
      | O => Ok (m, Some [])
      | S k => do (m1, v) <- read_arg ty m;
               match v with None => Ok (m1, None) | Some v => omap (push v) (loop k m1) end
      end in
    match ty with
    | TInt w sg => do m <- skip_space m; execute (int_read w sg (t_base t)) VInt m        (* arithmetic.hpp:23-27 *)
    | TBool => do m <- skip_space m; execute (bool_read (getf t flag_boolalpha)) VBool m  (* arithmetic.hpp:19-21 *)
    | TChar => do m <- skip_space m;
               let (m1, c) := mem_get m in Ok (m1, if mem_eof m1 then None else Some (VChar c))  (* byte.hpp:24-28 *)
    | TStr capacity => do m <- skip_space m; do (m1, s) <- read_string capacity m; Ok (m1, Some (VStr s))
    | TTuple l =>                                                                         (* tuple.hpp:37-41 *)
        omap as_list
          ((fix loop (l : list rtype) (m : memory) : outcome (memory * option (list value)) :=
              match l with
              | [] => Ok (m, Some [])
              | ty :: l => do (m1, v) <- read_arg ty m;
                           match v with None => Ok (m1, None) | Some v => omap (push v) (loop l m1) end
              end) l m)
    | TArray n ty => omap as_list (read_range ty n m)                                     (* range.hpp:85 *)
    | TVector ty =>                                                                       (* range.hpp:59-76 *)
        do m <- skip_space m;                                                             (* size.hpp:27-31 *)
        do (m1, v) <- execute (int_read 64 false (t_base t)) VInt m;
        match v with
        | Some (VInt n) => if 2 ^ 63 <=? n then Throw                                     (* 73 *)
                           else omap as_list (read_range ty (Z.to_nat n) m1)
        | _ => Ok (m1, None)
        end
    end.

  (** read(id, fmt, args...) *)
  (* io/io.hpp:45-48 *)
  Definition read_args (l : list rtype) (m : memory) : got := read_arg (TTuple l) m.
End Read.
