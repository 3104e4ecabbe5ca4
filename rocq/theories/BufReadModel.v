(** Model of reading arguments from text through a buffer, i.e. through the composition
    skipws >>= text on io/device/wrapper/buffered.hpp over a source that gives its data in pieces:
    the same code as in ReadModel.v (io/format/text/skipws.hpp, io/utility/{skip,till}.hpp,
    io/core/parser_executor.hpp, io/format/text/parser/{arithmetic,string}.hpp,
    io/argument/{byte,range,size,tuple}.hpp, io/io.hpp) with another device.

    Simplifications: those of ReadModel.v and ShortModel.v; [s.begin() + (size - i)] in till.hpp:44 may point
    past the buffer, which is taken to be harmless. *)
From Coq Require Import ZArith List Bool.
From Verif Require Import Outcome StringModel IntTextModel FormatModel FloatTextModel DeviceModel ShortModel ReadModel.
Import ListNotations.
Local Open Scope Z_scope.

(** buffered.hpp:49-51 *)
Definition sr_peek (b : sreader) : Z := if sr_ptr b <? sr_end b then at_char (sr_buf b) (sr_ptr b) else 0.
(** buffered.hpp:95-97 *)
Definition sr_eof (b : sreader) : bool := sr_end b <? sr_ptr b.
(** The number of characters to come, for the fuel of loops. *)
(* Not a function of the code. *)
Definition sr_left (b : sreader) : nat := (length (sr_input b) + length (concat (sr_src b)))%nat.

(** skip.hpp:19-23 *)
Fixpoint sskip (fuel : nat) (p : pred) (b : sreader) : outcome sreader :=
  match fuel with
  | O => NoFuel
  | S f =>
      if negb (sr_eof b) && pred_eval p (sr_peek b)
      then do b1 <- sr_move b 1; sskip f p b1
      else Ok b
  end.
(** skip.hpp:26, skipws.hpp:19-23 *)
Definition sskip_space (b : sreader) : outcome sreader := sskip (S (sr_left b)) (PFun is_space) b.

(** parser_executor.hpp:14-22 and 30 (43): the loop over the buffers the device has to offer. *)
Fixpoint sexec {P} (parse : P -> list Z -> outcome (nat * P)) (fuel : nat) (p : P) (b : sreader) : outcome (sreader * P) :=
  match fuel with
  | O => NoFuel
  | S f =>
      match sr_input b with
      | [] => Ok (b, p)                                                     (* 17-18 *)
      | s => do (n, p1) <- parse p s;                                       (* 19 *)
             do b1 <- sr_move b (Z.of_nat n);                               (* 20 *)
             if (n =? length s)%nat then sexec parse f p1 b1 else Ok (b1, p1)  (* 21 *)
      end
  end.
(** parser_executor.hpp:29-35 with the parsers of parser/arithmetic.hpp:19-27 *)
Definition sexec_int (w : Z) (sg : bool) (base : Z) (b : sreader) : outcome (sreader * option value) :=
  do (b1, p) <- sexec (int_parse w sg) (S (sr_left b)) (iparser_init base) b;
  Ok (b1, if int_ready p then Some (VInt (int_value w sg p)) else None).
Definition sexec_bool (alpha : bool) (b : sreader) : outcome (sreader * option value) :=
  do (b1, p) <- sexec (qparse alpha) (S (sr_left b)) qparser_init b;
  Ok (b1, if qready p then Some (VBool (q_x p)) else None).

(** till.hpp:38-53: [size] is the room left. *)
Fixpoint still (fuel : nat) (p : pred) (b : sreader) (size : nat) : outcome (sreader * list Z) :=
  match fuel with
  | O => NoFuel
  | S f =>
      let s := sr_input b in                                                (* 43 *)
      let xs := till_copy p size s in                                       (* 44-47 *)
      do b1 <- sr_move b (lenZ xs);                                         (* 48 *)
      let room := (size - length xs)%nat in
      let at_end := (length xs =? Nat.min (length s) size)%nat in
      if (room =? 0)%nat || (length s =? 0)%nat || negb at_end then Ok (b1, xs)   (* 49 *)
      else do (b2, ys) <- still f p b1 room; Ok (b2, xs ++ ys)
  end.
(** parser/string.hpp:15-28: [stored] characters are in the string already. *)
Fixpoint sread_till (fuel : nat) (p : pred) (b : sreader) (stored : list Z) (size : nat) : outcome (sreader * list Z) :=
  match fuel with
  | O => NoFuel
  | S f =>
      do (b1, xs) <- still (S (S (sr_left b))) p b size;                    (* 21-22 *)
      if (length xs <? size)%nat then Ok (b1, stored ++ xs)                 (* 23-26 *)
      else sread_till f p b1 (stored ++ xs) (length stored + size)          (* 18 *)
  end.
Definition sread_string (capacity : nat) (b : sreader) : outcome (sreader * list Z) :=
  sread_till (S (sr_left b)) (PFun is_space) b [] (Nat.max 16 capacity).

(** [read(id, fmt, x1) && ... && read(id, fmt, xn)] (io.hpp:45-48, tuple.hpp:23-27). *)
Definition spush (v : value) (r : sreader * option (list value)) : sreader * option (list value) :=
  (fst r, option_map (cons v) (snd r)).
Definition sas_list (r : sreader * option (list value)) : sreader * option value := (fst r, option_map VList (snd r)).

Section Read.
  Variable t : text.

  (** Reading an argument of the type: read_write.hpp:73-78, batch.hpp:53-55; the lines are those of [read_arg] in ReadModel.v. *)
  Fixpoint sread_arg (ty : rtype) (b : sreader) : outcome (sreader * option value) :=
    (* range.hpp:51-57 *)
    let read_range ty := fix loop (n : nat) (b : sreader) : outcome (sreader * option (list value)) :=
      match n with
      | O => Ok (b, Some [])
      | S k => do (b1, v) <- sread_arg ty b;
               match v with None => Ok (b1, None) | Some v => omap (spush v) (loop k b1) end
      end in
    match ty with
    | TInt w sg => do b <- sskip_space b; sexec_int w sg (t_base t) b                      (* arithmetic.hpp:23-27 *)
    | TBool => do b <- sskip_space b; sexec_bool (getf t flag_boolalpha) b                 (* arithmetic.hpp:19-21 *)
    | TChar => do b <- sskip_space b;
               do (b1, c) <- sr_get b; Ok (b1, if sr_eof b1 then None else Some (VChar c)) (* byte.hpp:24-28 *)
    | TStr capacity => do b <- sskip_space b; do (b1, s) <- sread_string capacity b; Ok (b1, Some (VStr s))
    | TTuple l =>                                                                          (* tuple.hpp:37-41 *)
        omap sas_list
          ((fix loop (l : list rtype) (b : sreader) : outcome (sreader * option (list value)) :=
              match l with
              | [] => Ok (b, Some [])
              | ty :: l => do (b1, v) <- sread_arg ty b;
                           match v with None => Ok (b1, None) | Some v => omap (spush v) (loop l b1) end
              end) l b)
    | TArray n ty => omap sas_list (read_range ty n b)                                     (* range.hpp:85 *)
    | TVector ty =>                                                                        (* range.hpp:59-76 *)
        do b <- sskip_space b;                                                             (* size.hpp:27-31 *)
        do (b1, v) <- sexec_int 64 false (t_base t) b;
        match v with
        | Some (VInt n) => if 2 ^ 63 <=? n then Throw                                      (* 73 *)
                           else omap sas_list (read_range ty (Z.to_nat n) b1)
        | _ => Ok (b1, None)
        end
    end.

  (** read(id, fmt, args...) *)
  (* io/io.hpp:45-48 *)
  Definition sread_args (l : list rtype) (b : sreader) : outcome (sreader * option value) := sread_arg (TTuple l) b.
End Read.

(** A pipe between a buffered writer and a buffered reader: what is given to it in one call comes out as one piece. *)
(* Not a function of the code: a device under buffered.hpp. *)
Definition pipe_write (d : list (list Z)) (xs : list Z) : list (list Z) * Z :=
  (match xs with [] => d | _ => d ++ [xs] end, lenZ xs).
