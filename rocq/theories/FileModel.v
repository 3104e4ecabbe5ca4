(** Model of the file device and of the line buffered wrapper
    (include/actl/io/device/mode.hpp, io/device/file.hpp and
    io/device/wrapper/line_buffered.hpp).

    The C library underneath is described here as well: a stream is the contents
    of the file, a position, the end-of-file indicator and what the last
    operation was (C17 7.21, with POSIX for the points the standard leaves open).
    Simplified: the characters are single bytes (sizeof(Char) = 1), the disk does
    not fail and does not fill up, text mode does not translate line ends, a file
    opened with "a+" is read from its beginning. *)
From Coq Require Import ZArith Bool List Lia.
From Verif Require Import Outcome.
Import ListNotations.
Local Open Scope Z_scope.

(** * Streams of the C library *)
(* The C library (C17 7.21), as used at io/device/file.hpp:36-119. *)
Inductive last_op := LNone | LIn | LOut.
Record stream := {
  st_data : list Z;      (* the contents of the file *)
  st_pos : Z;            (* the position *)
  st_eof : bool;         (* the end-of-file indicator *)
  st_in : bool;          (* opened for reading *)
  st_out : bool;         (* opened for writing *)
  st_app : bool;         (* opened for appending *)
  st_last : last_op;
  st_disk : list Z       (* the contents at the last flush: what is on the disk for sure *)
}.

(* The C library (C17 7.21), as used at file.hpp:42. *)
Definition size_of (l : list Z) : Z := Z.of_nat (length l).
Definition rest (s : stream) : list Z := skipn (Z.to_nat (st_pos s)) (st_data s).

Inductive open_base := BaseR | BaseW | BaseA.
Record open_mode := { o_base : open_base; o_plus : bool; o_bin : bool }.

(** fopen; [None] for the disk: the file does not exist. *)
(* Used at file.hpp:42. *)
Definition fopen (m : open_mode) (disk : option (list Z)) : option stream :=
  let mk l o a := Some {| st_data := l; st_pos := 0; st_eof := false;
                          st_in := o_plus m || negb o; st_out := o_plus m || o; st_app := a;
                          st_last := LNone; st_disk := l |} in
  match o_base m, disk with
  | BaseR, None => None
  | BaseR, Some l => mk l false false
  | BaseW, _ => mk [] true false
  | BaseA, None => mk [] true true
  | BaseA, Some l => mk l true true
  end.

(** fgetc: [None] stands for EOF. Input right after output is undefined. *)
(* Used at file.hpp:74. *)
Definition fgetc (s : stream) : outcome (stream * option Z) :=
  match st_last s with
  | LOut => UB
  | _ =>
      if negb (st_in s) || st_eof s then Ok (s, None)
      else match rest s with
           | c :: _ => Ok ({| st_data := st_data s; st_pos := st_pos s + 1; st_eof := false;
                              st_in := st_in s; st_out := st_out s; st_app := st_app s;
                              st_last := LIn; st_disk := st_disk s |}, Some c)
           | [] => Ok ({| st_data := st_data s; st_pos := st_pos s; st_eof := true;
                          st_in := st_in s; st_out := st_out s; st_app := st_app s;
                          st_last := LIn; st_disk := st_disk s |}, None)
           end
  end.

(** fread is repeated fgetc. *)
(* Used at file.hpp:79. *)
Fixpoint fread (s : stream) (n : nat) : outcome (stream * list Z) :=
  match n with
  | O => Ok (s, [])
  | S n =>
      do (s1, c) <- fgetc s;
      match c with
      | None => Ok (s1, [])
      | Some c => do (s2, xs) <- fread s1 n; Ok (s2, c :: xs)
      end
  end.

(** fseek with SEEK_CUR; false: failure. Positions before the beginning fail;
    a success clears the end-of-file indicator and writes pending output. *)
(* Used at file.hpp:85. *)
Definition fseek (s : stream) (off : Z) : stream * bool :=
  if st_pos s + off <? 0 then (s, false)
  else ({| st_data := st_data s; st_pos := st_pos s + off; st_eof := false;
           st_in := st_in s; st_out := st_out s; st_app := st_app s;
           st_last := LNone; st_disk := st_data s |}, true).

(** The contents after one byte is stored at a position; a gap is filled with zeros. *)
(* C17 7.21.3. *)
Fixpoint put_at (l : list Z) (p : nat) (c : Z) : list Z :=
  match p, l with
  | O, [] => [c]
  | O, _ :: r => c :: r
  | S p, [] => 0 :: put_at [] p c
  | S p, x :: r => x :: put_at r p c
  end.

(** fputc; false: EOF. Output after input is undefined, unless the input met the end. *)
(* Used at file.hpp:104. *)
Definition fputc (s : stream) (c : Z) : outcome (stream * bool) :=
  if negb (st_out s) then Ok (s, false)
  else match st_last s, st_eof s with
  | LIn, false => UB
  | _, _ =>
      let p := if st_app s then size_of (st_data s) else st_pos s in
      Ok ({| st_data := put_at (st_data s) (Z.to_nat p) c; st_pos := p + 1; st_eof := st_eof s;
             st_in := st_in s; st_out := st_out s; st_app := st_app s;
             st_last := LOut; st_disk := st_disk s |}, true)
  end.

(** fwrite is repeated fputc. *)
(* Used at file.hpp:108. *)
Fixpoint fwrite (s : stream) (xs : list Z) : outcome (stream * Z) :=
  match xs with
  | [] => Ok (s, 0)
  | x :: xs =>
      do (s1, ok) <- fputc s x;
      if ok then do (s2, n) <- fwrite s1 xs; Ok (s2, n + 1) else Ok (s1, 0)
  end.

(** fflush: the pending output is written; input can follow. *)
(* Used at file.hpp:114. *)
Definition fflush (s : stream) : stream :=
  {| st_data := st_data s; st_pos := st_pos s; st_eof := st_eof s;
     st_in := st_in s; st_out := st_out s; st_app := st_app s;
     st_last := match st_last s with LOut => LNone | x => x end; st_disk := st_data s |}.

(** fclose: what stays on the disk. *)
(* Used at file.hpp:46. *)
Definition fclose (s : stream) : list Z := st_data s.

(** fgets with a buffer of [n] bytes: at most n - 1 bytes, to the end of a line;
    [None] for the null pointer, when nothing is read. *)
Fixpoint fgets_loop (s : stream) (n : nat) : outcome (stream * list Z) :=
  match n with
  | O => Ok (s, [])
  | S n =>
      do (s1, c) <- fgetc s;
      match c with
      | None => Ok (s1, [])
      | Some c =>
          if c =? 10 then Ok (s1, [c])
          else do (s2, xs) <- fgets_loop s1 n; Ok (s2, c :: xs)
      end
  end.
Definition fgets (s : stream) (n : nat) : outcome (stream * option (list Z)) :=
  match n with
  | O => UB
  | S k =>
      do (s1, xs) <- fgets_loop s k;
      match xs, k with
      | [], S _ => Ok (s1, None)
      | _, _ => Ok (s1, Some xs)
      end
  end.

(** strlen of the bytes followed by the terminating zero. *)
(* Used at io/device/wrapper/line_buffered.hpp:29. *)
Fixpoint strlen (xs : list Z) : nat :=
  match xs with
  | [] => O
  | x :: r => if x =? 0 then O else S (strlen r)
  end.

(** * mode.hpp *)
(** 14-18: bin, in, out, app, trunc *)
Definition m_bin : Z := 1.
Definition m_in : Z := 2.
Definition m_out : Z := 4.
Definition m_app : Z := 8.
Definition m_trunc : Z := Z.lor (Z.lor m_in m_out) m_app.
(** 20-27: is_bin, is_in, is_out *)
Definition is_bin (m : Z) : bool := 0 <? Z.land m m_bin.
Definition is_in (m : Z) : bool := 0 <? Z.land m m_in.
Definition is_out (m : Z) : bool := 0 <? Z.land m (Z.lor m_out m_app).

(** * file.hpp *)
(** 18-33: mode_str *)
Definition mode_str : list open_mode :=
  let o b p n := {| o_base := b; o_plus := p; o_bin := n |} in
  [ o BaseR false false; o BaseR false true;
    o BaseW false false; o BaseW false true;
    o BaseW true false;  o BaseW true true;
    o BaseA false false; o BaseA false true;
    o BaseA true false;  o BaseA true true;
    o BaseA false false; o BaseA false true;
    o BaseR true false;  o BaseR true true ].

(** 35-42: the constructors; AC_ASSERT(file) fails for a null pointer. An index
    outside the table is undefined behaviour. *)
Definition mode_index (m : Z) : Z := Z.land m 15 - 2.
Definition open_file (m : Z) (disk : option (list Z)) : outcome stream :=
  if mode_index m <? 0 then UB
  else match nth_error mode_str (Z.to_nat (mode_index m)) with
       | None => UB
       | Some o => match fopen o disk with
                   | None => AssertFail
                   | Some s => Ok s
                   end
       end.

(** 53-55: eof *)
Definition file_eof (s : stream) : bool := st_eof s.

(** 73-76: get returns the zero character at the end *)
Definition file_get (s : stream) : outcome (stream * Z) :=
  do (s1, c) <- fgetc s; Ok (s1, match c with None => 0 | Some c => c end).

(** 78-82: read *)
Definition file_read (s : stream) (n : nat) : outcome (stream * list Z) := fread s n.

(** 84-89: move asserts that fseek succeeds *)
Definition file_move (s : stream) (off : Z) : outcome stream :=
  let '(s1, ok) := fseek s off in assert_then ok (Ok s1).

(** 67-71: peek is get and a step back *)
Definition file_peek (s : stream) : outcome (stream * Z) :=
  do (s1, c) <- file_get s; do s2 <- file_move s1 (-1); Ok (s2, c).

(** 103-105: write of a character *)
Definition file_put (s : stream) (c : Z) : outcome (stream * Z) :=
  do (s1, ok) <- fputc s c; Ok (s1, if ok then 1 else 0).

(** 107-111: write of a span *)
Definition file_write (s : stream) (xs : list Z) : outcome (stream * Z) := fwrite s xs.

(** 113-115: flush *)
Definition file_flush (s : stream) : stream := fflush s.

(** 117-119 and 44-47: the destructors of a file that owns its stream; what
    stays on the disk. *)
Definition file_close (s : stream) : list Z :=
  fclose (if st_out s then file_flush s else s).

(** Sequences of operations of the device, as a user writes them. *)
(* A client of file.hpp:62-119. *)
Inductive fop := FGet | FRead (n : nat) | FPeek | FMove (off : Z) | FPut (c : Z)
               | FWrite (xs : list Z) | FFlush.
(** What an operation returns: the bytes delivered, or the number of bytes taken. *)
(* A client of file.hpp:62-119. *)
Inductive fres := RBytes (xs : list Z) | RCount (n : Z) | RUnit.
Definition file_op (s : stream) (o : fop) : outcome (stream * fres) :=
  match o with
  | FGet => do (s1, c) <- file_get s; Ok (s1, RBytes [c])
  | FRead n => do (s1, xs) <- file_read s n; Ok (s1, RBytes xs)
  | FPeek => do (s1, c) <- file_peek s; Ok (s1, RBytes [c])
  | FMove off => do s1 <- file_move s off; Ok (s1, RUnit)
  | FPut c => do (s1, n) <- file_put s c; Ok (s1, RCount n)
  | FWrite xs => do (s1, n) <- file_write s xs; Ok (s1, RCount n)
  | FFlush => Ok (file_flush s, RUnit)
  end.
Fixpoint file_run (s : stream) (os : list fop) : outcome (stream * list fres) :=
  match os with
  | [] => Ok (s, [])
  | o :: r => do (s1, x) <- file_op s o; do (s2, xs) <- file_run s1 r; Ok (s2, x :: xs)
  end.

(** * line_buffered.hpp *)
(** 25-32: read. As written it does not compile for a file that can be read:
    this->get() finds the get of 73-76 of file.hpp, which returns a character.
    The model passes the stream, as intended. *)
Definition line_read (s : stream) (size : nat) : outcome (stream * list Z) :=
  do (s1, r) <- fgets s size;
  match r with
  | Some xs => Ok (s1, firstn (strlen xs) xs)
  | None => Ok (s1, [])
  end.
Fixpoint line_reads (s : stream) (sizes : list nat) : outcome (stream * list (list Z)) :=
  match sizes with
  | [] => Ok (s, [])
  | n :: r => do (s1, x) <- line_read s n; do (s2, xs) <- line_reads s1 r; Ok (s2, x :: xs)
  end.

(** 46-48: the loop from the end to after the last line feed: the length of
    the part before [last] *)
Fixpoint last_line (rev_chars : list Z) : nat :=
  match rev_chars with
  | [] => O
  | c :: r => if c =? 10 then length rev_chars else last_line r
  end.

(** 45-54: the effect of write on the stream *)
Definition line_write_effect (s : stream) (xs : list Z) : outcome stream :=
  let k := last_line (rev xs) in
  do s1 <- (if (k =? 0)%nat then Ok s
            else do (s1, _) <- file_write s (firstn k xs); Ok (file_flush s1));
  do (s2, _) <- file_write s1 (skipn k xs);
  Ok s2.
(** 45-55: the function has no return statement: reaching its end is undefined. *)
Definition line_write (s : stream) (xs : list Z) : outcome (stream * Z) :=
  do s1 <- line_write_effect s xs; UB.
Fixpoint line_writes (s : stream) (xss : list (list Z)) : outcome stream :=
  match xss with
  | [] => Ok s
  | xs :: r => do s1 <- line_write_effect s xs; line_writes s1 r
  end.
