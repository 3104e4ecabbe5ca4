(** Model of the format that flushes after each unit: io/format/utility/unit_flush.hpp, io/utility/flush.hpp, with the writing of bytes, spans of
    bytes, repeated bytes, functions, tuples and ranges (io/argument/{byte,byte_span,function,tuple,range}.hpp, io/utility/repeat.hpp) and
    of batches (io/core/batch.hpp), over any device and over a buffered writer (ShortModel.v).

    Simplifications: arguments are what is left of them after earlier formats of the composition (binary, text) have encoded them as bytes; the size of
    a dynamic range is a tuple of one span in front of the elements (size.hpp:21-25); formats with separators are in FormatModel.v. *)
From Coq Require Import ZArith List Bool.
From Verif Require Import Outcome DeviceModel ShortModel.
Import ListNotations.
Local Open Scope Z_scope.

(** Arguments of write. *)
(* byte.hpp:19-22 and byte_span.hpp:14-18; repeat.hpp:23-28; flush.hpp:14-19; tuple.hpp:31-35, range.hpp:39-49 *)
Inductive uarg := UOne (w : wop) | URepeat (c : Z) (count : nat) | UFlush | UNode (l : list uarg).

(** The bytes of a call. *)
(* wop: io/device/memory.hpp:62-72 *)
Definition wop_size (w : wop) : Z := match w with WChar _ => 1 | WSpan xs => lenZ xs end.

Section Write.
  Context {D : Type}.
  (** The device: what a call makes of it and what the call returns (nothing for flush). *)
  (* The members write and flush of any device. *)
  Variable dstep : D -> bop -> outcome (D * Z).

  (** repeat.hpp:23-28: the results of the device are not looked at. *)
  Fixpoint urepeat (c : Z) (count : nat) (d : D) : outcome D :=
    match count with
    | O => Ok d
    | S k => do (d1, _) <- dstep d (BWrite (WChar c)); urepeat c k d1
    end.

  (** unit_flush.hpp:19-22 with batch.hpp:22-30: write_final of the argument, then write_final of flush_t *)
  Fixpoint uwrite (a : uarg) (d : D) : outcome (D * bool) :=
    do (d1, ok) <-
      match a with
      | UOne w => do (d1, n) <- dstep d (BWrite w); Ok (d1, n =? wop_size w)
      | URepeat c count => do d1 <- urepeat c count d; Ok (d1, true)
      | UFlush => do (d1, _) <- dstep d BFlush; Ok (d1, true)
      | UNode l =>
          (fix each (l : list uarg) (d : D) : outcome (D * bool) :=
             match l with
             | [] => Ok (d, true)
             | a :: l => do (d1, ok) <- uwrite a d; if ok : bool then each l d1 else Ok (d1, false)
             end) l d
      end;
    if ok : bool then do (d2, _) <- dstep d1 BFlush; Ok (d2, true) else Ok (d1, false).

  (** write(od, unit_flush{}, args...), io.hpp:35-38 *)
  Fixpoint uwrites (l : list uarg) (d : D) : outcome (D * bool) :=
    match l with
    | [] => Ok (d, true)
    | a :: l => do (d1, ok) <- uwrite a d; if ok : bool then uwrites l d1 else Ok (d1, false)
    end.

  (** The same without the format, for comparison (read_write.hpp:42-45 with write_final alone). *)
  Fixpoint pwrite (a : uarg) (d : D) : outcome (D * bool) :=
    match a with
    | UOne w => do (d1, n) <- dstep d (BWrite w); Ok (d1, n =? wop_size w)
    | URepeat c count => do d1 <- urepeat c count d; Ok (d1, true)
    | UFlush => do (d1, _) <- dstep d BFlush; Ok (d1, true)
    | UNode l =>
        (fix each (l : list uarg) (d : D) : outcome (D * bool) :=
           match l with
           | [] => Ok (d, true)
           | a :: l => do (d1, ok) <- pwrite a d; if ok : bool then each l d1 else Ok (d1, false)
           end) l d
    end.
  (* io.hpp:35-38 *)
  Fixpoint pwrites (l : list uarg) (d : D) : outcome (D * bool) :=
    match l with
    | [] => Ok (d, true)
    | a :: l => do (d1, ok) <- pwrite a d; if ok : bool then pwrites l d1 else Ok (d1, false)
    end.
End Write.
