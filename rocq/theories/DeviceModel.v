(** Input/output devices: include/actl/io/device/memory.hpp, string.hpp,
    wrapper/buffered.hpp and the utilities io/utility/{repeat,skip,till,predicate}.hpp.

    Characters are one byte wide ([Char = char]) and are represented by
    integers.  A pointer into a block is an offset from its start; pointers
    may be formed past the end (the code does so in get()), but reading or
    writing outside of the block is [UB]. *)
From Coq Require Import ZArith List Bool Lia.
From Verif Require Import Outcome.
Import ListNotations.
Local Open Scope Z_scope.

(* The language: sizes, conversion to size_t and memcpy as used at io/device/memory.hpp:66-72,
   107-113. *)
Definition lenZ {A} (l : list A) : Z := Z.of_nat (length l).
(** Conversion to size_t. *)
(* memory.hpp:68, 109 *)
Definition size_t (x : Z) : Z := x mod 2 ^ 64.

(** Characters [p, p + n) of a block. *)
(* memcpy at memory.hpp:69, 110 *)
Definition slice {A} (l : list A) (p n : Z) : list A :=
  firstn (Z.to_nat n) (skipn (Z.to_nat p) l).
(** The block with [xs] stored from position [p] on. *)
(* memcpy at memory.hpp:69 and characters at 59-64, 97-105 *)
Definition store {A} (l : list A) (p : Z) (xs : list A) : list A :=
  firstn (Z.to_nat p) l ++ xs ++ skipn (Z.to_nat p + length xs) l.
Definition at_char (l : list Z) (p : Z) : Z := nth (Z.to_nat p) l 0.

(** memcpy from / to a block; copying nothing is fine anywhere. *)
(* memory.hpp:69, 110 *)
Definition load_span (l : list Z) (p n : Z) : outcome (list Z) :=
  if n =? 0 then Ok [] else
  if (0 <=? p) && (p + n <=? lenZ l) then Ok (slice l p n) else UB.
Definition store_span (l : list Z) (p : Z) (xs : list Z) : outcome (list Z) :=
  if lenZ xs =? 0 then Ok l else
  if (0 <=? p) && (p + lenZ xs <=? lenZ l) then Ok (store l p xs) else UB.

(** * Memory device: memory.hpp *)
Record memory := { m_data : list Z; m_ptr : Z }.
Definition mem_open (l : list Z) : memory := {| m_data := l; m_ptr := 0 |}.  (* 24-25 *)
Definition mem_end (m : memory) : Z := lenZ (m_data m).                       (* 37-39 *)

(** 27-30 *)
Definition mem_move (m : memory) (offset : Z) : outcome memory :=
  let p := m_ptr m + offset in
  assert_then ((0 <=? p) && (p <=? mem_end m))
    (Ok {| m_data := m_data m; m_ptr := p |}).
(** 32-34 *)
Definition mem_eof (m : memory) : bool := mem_end m <? m_ptr m.
(** 59-64 *)
Definition mem_write_char (m : memory) (c : Z) : outcome (memory * Z) :=
  if mem_end m <=? m_ptr m then Ok (m, 0) else
  do d <- store_span (m_data m) (m_ptr m) [c];
  Ok ({| m_data := d; m_ptr := m_ptr m + 1 |}, 1).
(** 66-72 *)
Definition mem_write (m : memory) (xs : list Z) : outcome (memory * Z) :=
  let count := Z.min (lenZ xs) (size_t (mem_end m - m_ptr m)) in
  do d <- store_span (m_data m) (m_ptr m) (firstn (Z.to_nat count) xs);
  Ok ({| m_data := d; m_ptr := m_ptr m + count |}, count).
(** 97-99 *)
Definition mem_peek (m : memory) : Z :=
  if m_ptr m <? mem_end m then at_char (m_data m) (m_ptr m) else 0.
(** 101-105 *)
Definition mem_get (m : memory) : memory * Z :=
  ({| m_data := m_data m; m_ptr := m_ptr m + 1 |}, mem_peek m).
(** 107-113 *)
Definition mem_read (m : memory) (size : Z) : outcome (memory * list Z) :=
  let count := Z.min size (size_t (mem_end m - m_ptr m)) in
  do xs <- load_span (m_data m) (m_ptr m) count;
  Ok ({| m_data := m_data m; m_ptr := m_ptr m + count |}, xs).
(** 55-57, 93-95: output_buffer() and input_buffer(), position and size. *)
Definition mem_buffer_size (m : memory) : Z := mem_end m - m_ptr m.
Definition mem_input (m : memory) : list Z := skipn (Z.to_nat (m_ptr m)) (m_data m).

(** Histories of writes. *)
(* A client of memory.hpp:59-72. *)
Inductive wop := WChar (c : Z) | WSpan (xs : list Z).
Definition wop_data (o : wop) : list Z :=
  match o with WChar c => [c] | WSpan xs => xs end.
Definition mem_wop (m : memory) (o : wop) : outcome (memory * Z) :=
  match o with WChar c => mem_write_char m c | WSpan xs => mem_write m xs end.
Fixpoint mem_writes (m : memory) (os : list wop) : outcome (memory * list Z) :=
  match os with
  | [] => Ok (m, [])
  | o :: r => do (m1, n) <- mem_wop m o; do (m2, ns) <- mem_writes m1 r; Ok (m2, n :: ns)
  end.

(** Histories of reads. *)
(* A client of memory.hpp:97-113. *)
Inductive rop := RGet | RRead (n : nat).
Definition mem_rop (m : memory) (o : rop) : outcome (memory * list Z) :=
  match o with
  | RGet => let '(m1, c) := mem_get m in Ok (m1, [c])
  | RRead n => mem_read m (Z.of_nat n)
  end.
Fixpoint mem_reads (m : memory) (os : list rop) : outcome (memory * list (list Z)) :=
  match os with
  | [] => Ok (m, [])
  | o :: r => do (m1, x) <- mem_rop m o; do (m2, xs) <- mem_reads m1 r; Ok (m2, x :: xs)
  end.

(** * String device: string.hpp, opened for reading and appending *)
(* The members of io/device/string.hpp:50, 64 *)
Record sdev := { s_str : list Z; s_pos : Z }.
(** 32-35: with all of in, out and app set the string is cleared. *)
Definition s_open (trunc : bool) (l : list Z) : sdev :=
  {| s_str := if trunc then [] else l; s_pos := 0 |}.
Definition s_write_char (d : sdev) (c : Z) : sdev * Z :=                (* 37-40 *)
  ({| s_str := s_str d ++ [c]; s_pos := s_pos d |}, 1).
Definition s_write (d : sdev) (xs : list Z) : sdev * Z :=               (* 42-45 *)
  ({| s_str := s_str d ++ xs; s_pos := s_pos d |}, lenZ xs).
Definition s_peek (d : sdev) : Z :=                                     (* 73-75 *)
  if s_pos d <? lenZ (s_str d) then at_char (s_str d) (s_pos d) else 0.
Definition s_get (d : sdev) : sdev * Z :=                               (* 77-81 *)
  ({| s_str := s_str d; s_pos := size_t (s_pos d + 1) |}, s_peek d).
Definition s_read (d : sdev) (size : Z) : outcome (sdev * list Z) :=    (* 83-89 *)
  let count := Z.min size (size_t (lenZ (s_str d) - s_pos d)) in
  do xs <- load_span (s_str d) (s_pos d) count;
  Ok ({| s_str := s_str d; s_pos := size_t (s_pos d + count) |}, xs).
Definition s_move (d : sdev) (offset : Z) : outcome sdev :=             (* 91-94 *)
  let p := size_t (s_pos d + offset) in
  assert_then (p <=? lenZ (s_str d)) (Ok {| s_str := s_str d; s_pos := p |}).
Definition s_eof (d : sdev) : bool := lenZ (s_str d) <? s_pos d.        (* 96-98 *)

Inductive sop := SWrite (o : wop) | SRead (o : rop) | SMove (offset : Z).
(** Characters delivered (reads) or accepted (writes). *)
(* A client of string.hpp:28-104. *)
Definition s_step (d : sdev) (o : sop) : outcome (sdev * (list Z + Z)) :=
  match o with
  | SWrite (WChar c) => let '(d1, n) := s_write_char d c in Ok (d1, inr n)
  | SWrite (WSpan xs) => let '(d1, n) := s_write d xs in Ok (d1, inr n)
  | SRead RGet => let '(d1, c) := s_get d in Ok (d1, inl [c])
  | SRead (RRead n) => do (d1, xs) <- s_read d (Z.of_nat n); Ok (d1, inl xs)
  | SMove k => do d1 <- s_move d k; Ok (d1, inl [])
  end.
Fixpoint s_run (d : sdev) (os : list sop) : outcome (sdev * list (list Z + Z)) :=
  match os with
  | [] => Ok (d, [])
  | o :: r => do (d1, x) <- s_step d o; do (d2, xs) <- s_run d1 r; Ok (d2, x :: xs)
  end.

(** * Buffered writer: buffered.hpp:109-175
    The underlying device takes everything it is given ([b_out]). *)
Record bwriter := { b_buf : list Z; b_pos : Z; b_out : list Z }.
Definition b_open (n : nat) : bwriter := {| b_buf := repeat 0 n; b_pos := 0; b_out := [] |}.
Definition b_size (b : bwriter) : Z := lenZ (b_buf b).
Definition b_overflow (b : bwriter) : bwriter :=                        (* 117-120 *)
  {| b_buf := b_buf b; b_pos := 0;
     b_out := b_out b ++ firstn (Z.to_nat (b_pos b)) (b_buf b) |}.
Definition b_move (b : bwriter) (offset : Z) : outcome bwriter :=       (* 160-165 *)
  let b1 := {| b_buf := b_buf b; b_pos := b_pos b + offset; b_out := b_out b |} in
  assert_then (0 <=? b_pos b1)
    (Ok (if b_pos b1 =? b_size b1 then b_overflow b1 else b1)).
Definition b_write_char (b : bwriter) (c : Z) : outcome (bwriter * Z) := (* 129-133 *)
  do d <- store_span (b_buf b) (b_pos b) [c];
  do b1 <- b_move {| b_buf := d; b_pos := b_pos b; b_out := b_out b |} 1;
  Ok (b1, 1).
Definition b_write (b : bwriter) (xs : list Z) : outcome (bwriter * Z) := (* 135-158 *)
  let count := lenZ xs in
  let available := size_t (b_size b - b_pos b) in
  if count <? available then
    do d <- store_span (b_buf b) (b_pos b) xs;                           (* 140-143 *)
    Ok ({| b_buf := d; b_pos := b_pos b + count; b_out := b_out b |}, lenZ xs)
  else
    do d <- store_span (b_buf b) (b_pos b) (firstn (Z.to_nat available) xs);  (* 145 *)
    let out1 := b_out b ++ d in                                          (* 146 *)
    let rest := skipn (Z.to_nat available) xs in                         (* 147 *)
    let count1 := count - available in                                   (* 148 *)
    let remainder := count1 mod b_size b in                              (* 149 *)
    let out2 := if remainder <? count1
                then out1 ++ firstn (Z.to_nat (count1 - remainder)) rest
                else out1 in                                             (* 150-153 *)
    let rest2 := if remainder <? count1
                 then skipn (Z.to_nat (count1 - remainder)) rest else rest in
    if 0 <? remainder then                                               (* 154-155 *)
      do d2 <- store_span d 0 rest2;
      Ok ({| b_buf := d2; b_pos := remainder; b_out := out2 |}, lenZ xs)
    else Ok ({| b_buf := d; b_pos := b_pos b; b_out := out2 |}, lenZ xs).
Definition b_flush (b : bwriter) : bwriter := b_overflow b.              (* 167-170 *)

Inductive bop := BWrite (o : wop) | BFlush.
Definition b_step (b : bwriter) (o : bop) : outcome (bwriter * Z) :=
  match o with
  | BWrite (WChar c) => b_write_char b c
  | BWrite (WSpan xs) => b_write b xs
  | BFlush => Ok (b_flush b, 0)
  end.
Fixpoint b_run (b : bwriter) (os : list bop) : outcome (bwriter * list Z) :=
  match os with
  | [] => Ok (b, [])
  | o :: r => do (b1, n) <- b_step b o; do (b2, ns) <- b_run b1 r; Ok (b2, n :: ns)
  end.

(** * Buffered reader: buffered.hpp:27-98
    The underlying device delivers [r_src]; a read takes as much as there is. *)
Record breader := { r_buf : list Z; r_ptr : Z; r_end : Z; r_src : list Z }.
Definition r_open (n : nat) (src : list Z) : breader :=                   (* 23-24, 35 *)
  {| r_buf := repeat 0 n; r_ptr := 0; r_end := 0; r_src := src |}.
Definition r_size (b : breader) : Z := lenZ (r_buf b).
Definition dev_read (src : list Z) (n : Z) : list Z * list Z :=
  (firstn (Z.to_nat n) src, skipn (Z.to_nat n) src).
Definition r_underflow (b : breader) : breader :=                         (* 37-40 *)
  let '(xs, src) := dev_read (r_src b) (r_size b) in
  {| r_buf := store (r_buf b) 0 xs; r_ptr := 0; r_end := lenZ xs; r_src := src |}.
Definition r_peek (b : breader) : Z :=                                    (* 49-51 *)
  if r_ptr b <? r_end b then at_char (r_buf b) (r_ptr b) else 0.
Definition r_move (b : breader) (offset : Z) : outcome breader :=         (* 86-93 *)
  let b1 := {| r_buf := r_buf b; r_ptr := r_ptr b + offset; r_end := r_end b; r_src := r_src b |} in
  assert_then (0 <=? r_ptr b1)
    (Ok (if r_ptr b1 =? r_end b1 then r_underflow b1 else b1)).
Definition r_get (b : breader) : outcome (breader * Z) :=                 (* 53-57 *)
  let c := r_peek b in do b1 <- r_move b 1; Ok (b1, c).
Definition r_eof (b : breader) : bool := r_end b <? r_ptr b.              (* 95-97 *)
Definition r_read (b : breader) (size : Z) : outcome (breader * list Z) := (* 59-84 *)
  let available := size_t (r_end b - r_ptr b) in
  if size <? available then
    do xs <- load_span (r_buf b) (r_ptr b) size;                          (* 64 *)
    Ok ({| r_buf := r_buf b; r_ptr := r_ptr b + size; r_end := r_end b; r_src := r_src b |}, xs)
  else
    do xs <- load_span (r_buf b) (r_ptr b) available;                     (* 69 *)
    let count := size - available in                                      (* 70 *)
    let remainder := count mod r_size b in                                (* 71 *)
    let '(ys, src) := if remainder <? count
                      then dev_read (r_src b) (count - remainder)
                      else ([], r_src b) in                               (* 72-75 *)
    let b1 := r_underflow {| r_buf := r_buf b; r_ptr := r_ptr b; r_end := r_end b; r_src := src |} in
    let remainder := Z.min remainder (r_end b1 - r_ptr b1) in             (* 77 *)
    if 0 <? remainder then
      do zs <- load_span (r_buf b1) (r_ptr b1) remainder;                 (* 80 *)
      do b2 <- r_move b1 remainder;                                       (* 81 *)
      Ok (b2, xs ++ ys ++ zs)
    else Ok (b1, xs ++ ys).

Definition r_step (b : breader) (o : rop) : outcome (breader * list Z) :=
  match o with
  | RGet => do (b1, c) <- r_get b; Ok (b1, [c])
  | RRead n => r_read b (Z.of_nat n)
  end.
Fixpoint r_run (b : breader) (os : list rop) : outcome (breader * list (list Z)) :=
  match os with
  | [] => Ok (b, [])
  | o :: r => do (b1, x) <- r_step b o; do (b2, xs) <- r_run b1 r; Ok (b2, x :: xs)
  end.

(** * Utilities *)

(** predicate.hpp:14-28, for a single character, a string and a function.
    strchr also finds the terminating zero. *)
Inductive pred := PChar (c : Z) | PString (l : list Z) | PFun (f : Z -> bool).
Definition pred_eval (p : pred) (c : Z) : bool :=
  match p with
  | PChar d => d =? c
  | PString l => existsb (Z.eqb c) l || (c =? 0)
  | PFun f => f c
  end.

(** skip.hpp:19-23 on a memory device. *)
Fixpoint skip (fuel : nat) (p : pred) (m : memory) : outcome memory :=
  match fuel with
  | O => NoFuel
  | S f =>
      if negb (mem_eof m) && pred_eval p (mem_peek m)
      then do m1 <- mem_move m 1; skip f p m1
      else Ok m
  end.

(** till.hpp:46-47: the inner loop. *)
Fixpoint till_copy (p : pred) (n : nat) (s : list Z) : list Z :=
  match n, s with
  | S k, c :: r => if pred_eval p c then [] else c :: till_copy p k r
  | _, _ => []
  end.
(** till.hpp:38-53 on a memory device (whole buffer available): the stored
    characters; [size] is the room left. *)
Fixpoint till_buffered (fuel : nat) (p : pred) (m : memory) (size : nat) :
    outcome (memory * list Z) :=
  match fuel with
  | O => NoFuel
  | S f =>
      let s := mem_input m in
      let xs := till_copy p size s in
      do m1 <- mem_move m (lenZ xs);
      let room := (size - length xs)%nat in
      let at_end := (length xs =? Nat.min (length s) size)%nat in
      if (room =? 0)%nat || (length s =? 0)%nat || negb at_end
      then Ok (m1, xs)
      else do (m2, ys) <- till_buffered f p m1 room; Ok (m2, xs ++ ys)
  end.
(** till.hpp:25-36: devices without a buffer; the terminator is consumed. *)
Fixpoint till_simple (p : pred) (m : memory) (size : nat) : memory * list Z :=
  match size with
  | O => (m, [])
  | S k =>
      let '(m1, c) := mem_get m in
      if mem_eof m1 || pred_eval p c then (m1, [])
      else let '(m2, xs) := till_simple p m1 k in (m2, c :: xs)
  end.

(** repeat.hpp:23-28 on a string device. *)
Fixpoint repeat_simple (d : sdev) (c : Z) (count : nat) : sdev :=
  match count with
  | O => d
  | S n => repeat_simple (fst (s_write_char d c)) c n
  end.
(** repeat.hpp:30-50 on a memory device. *)
Definition repeat_memory (m : memory) (c : Z) (count : Z) : outcome memory :=
  let n := mem_buffer_size m in
  if count <=? n then
    do d <- store_span (m_data m) (m_ptr m) (repeat c (Z.to_nat count));
    mem_move {| m_data := d; m_ptr := m_ptr m |} count
  else
    do d <- store_span (m_data m) (m_ptr m) (repeat c (Z.to_nat n));
    do m1 <- mem_move {| m_data := d; m_ptr := m_ptr m |} n;
    let count1 := count - n in
    let n1 := mem_buffer_size m1 in
    do d1 <- store_span (m_data m1) (m_ptr m1) (repeat c (Z.to_nat (Z.min count1 n1)));
    if n1 =? 0 then UB                                   (* division by zero, 44 *)
    else
      (fix loop (k : nat) (m : memory) : outcome memory :=
         match k with
         | O => mem_move m (count1 mod n1)
         | S j => do m1 <- mem_move m n1; loop j m1
         end) (Z.to_nat (count1 / n1)) {| m_data := d1; m_ptr := m_ptr m1 |}.
