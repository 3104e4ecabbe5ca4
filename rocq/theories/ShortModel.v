(** Buffering over devices that take or give less than they are asked for: io/device/wrapper/buffered.hpp as in
    DeviceModel.v, over any device to write to and over a source that gives its data in pieces. Examples of such
    devices: a memory device or a disk that is full; line_buffered (FileModel.v), which gives one line at a time. *)
From Coq Require Import ZArith List Bool.
From Verif Require Import Outcome DeviceModel.
Import ListNotations.
Local Open Scope Z_scope.

(** * Writing *)
Section Writer.
  Context {D : Type}.
  (** What the device makes of a block; its second result is the number of characters it took. *)
  (* The write of any device, as called at buffered.hpp:118, 146, 151. *)
  Variable dwrite : D -> list Z -> D * Z.

  (** buffered.hpp:109-115 *)
  Record swriter := { sw_buf : list Z; sw_pos : Z; sw_dev : D }.
  Definition sw_open (n : nat) (d : D) : swriter := {| sw_buf := repeat 0 n; sw_pos := 0; sw_dev := d |}.
  (** 117-120: the result of the device is not looked at. *)
  Definition sw_overflow (b : swriter) : swriter :=
    {| sw_buf := sw_buf b; sw_pos := 0; sw_dev := fst (dwrite (sw_dev b) (firstn (Z.to_nat (sw_pos b)) (sw_buf b))) |}.
  (** 160-165 *)
  Definition sw_move (b : swriter) (offset : Z) : outcome swriter :=
    let b1 := {| sw_buf := sw_buf b; sw_pos := sw_pos b + offset; sw_dev := sw_dev b |} in
    assert_then (0 <=? sw_pos b1) (Ok (if sw_pos b1 =? lenZ (sw_buf b1) then sw_overflow b1 else b1)).
  (** 129-133 *)
  Definition sw_write_char (b : swriter) (c : Z) : outcome (swriter * Z) :=
    do d <- store_span (sw_buf b) (sw_pos b) [c];
    do b1 <- sw_move {| sw_buf := d; sw_pos := sw_pos b; sw_dev := sw_dev b |} 1;
    Ok (b1, 1).
  (** 135-158 *)
  Definition sw_write (b : swriter) (xs : list Z) : outcome (swriter * Z) :=
    let count := lenZ xs in
    let available := size_t (lenZ (sw_buf b) - sw_pos b) in
    if count <? available then
      do d <- store_span (sw_buf b) (sw_pos b) xs;
      Ok ({| sw_buf := d; sw_pos := sw_pos b + count; sw_dev := sw_dev b |}, lenZ xs)
    else
      do d <- store_span (sw_buf b) (sw_pos b) (firstn (Z.to_nat available) xs);
      let dev := fst (dwrite (sw_dev b) d) in
      let rest := skipn (Z.to_nat available) xs in
      let count := count - available in
      let remainder := count mod lenZ (sw_buf b) in
      let dev := if remainder <? count then fst (dwrite dev (firstn (Z.to_nat (count - remainder)) rest)) else dev in
      let rest := if remainder <? count then skipn (Z.to_nat (count - remainder)) rest else rest in
      if 0 <? remainder then
        do d <- store_span d 0 rest;
        Ok ({| sw_buf := d; sw_pos := remainder; sw_dev := dev |}, lenZ xs)
      else Ok ({| sw_buf := d; sw_pos := sw_pos b; sw_dev := dev |}, lenZ xs).
  (** 167-170; the flush of the device has no effect on its contents. *)
  Definition sw_step (b : swriter) (o : bop) : outcome (swriter * Z) :=
    match o with
    | BWrite (WChar c) => sw_write_char b c
    | BWrite (WSpan xs) => sw_write b xs
    | BFlush => Ok (sw_overflow b, 0)
    end.
  (* A client of buffered.hpp:129-170. *)
  Fixpoint sw_run (b : swriter) (os : list bop) : outcome (swriter * list Z) :=
    match os with
    | [] => Ok (b, [])
    | o :: r => do (b1, n) <- sw_step b o; do (b2, ns) <- sw_run b1 r; Ok (b2, n :: ns)
    end.
End Writer.
Arguments swriter : clear implicits.

(** A device with room for [cap] characters; it takes what there is room for. *)
(* memory.hpp:66-72; a full disk *)
Definition cap_write (cap : nat) (d xs : list Z) : list Z * Z :=
  let taken := firstn (cap - length d) xs in (d ++ taken, lenZ taken).
(** A device that takes some characters of each block, as [taking] says, and everything afterwards. *)
(* A device of a client. *)
Definition part_write (d : list Z * list nat) (xs : list Z) : (list Z * list nat) * Z :=
  match snd d with
  | [] => ((fst d ++ xs, []), lenZ xs)
  | k :: ks => ((fst d ++ firstn k xs, ks), lenZ (firstn k xs))
  end.

(** * Reading *)
(** The pieces the source gives; a read gives the next piece or, if it is longer than asked for, its beginning; after the last piece, nothing. *)
(* A device of a client; line_buffered.hpp: one line. *)
Definition piece_read (ps : list (list Z)) (n : nat) : list Z * list (list Z) :=
  match ps with
  | [] => ([], [])
  | p :: r => if (length p <=? n)%nat then (p, r) else (firstn n p, skipn n p :: r)
  end.
(** buffered.hpp:27-35 *)
Record sreader := { sr_buf : list Z; sr_ptr : Z; sr_end : Z; sr_src : list (list Z) }.
Definition sr_open (n : nat) (ps : list (list Z)) : sreader :=
  {| sr_buf := repeat 0 n; sr_ptr := 0; sr_end := 0; sr_src := ps |}.
(** 37-40 *)
Definition sr_underflow (b : sreader) : sreader :=
  let '(xs, src) := piece_read (sr_src b) (length (sr_buf b)) in
  {| sr_buf := store (sr_buf b) 0 xs; sr_ptr := 0; sr_end := lenZ xs; sr_src := src |}.
(** 86-93 *)
Definition sr_move (b : sreader) (offset : Z) : outcome sreader :=
  let b1 := {| sr_buf := sr_buf b; sr_ptr := sr_ptr b + offset; sr_end := sr_end b; sr_src := sr_src b |} in
  assert_then (0 <=? sr_ptr b1) (Ok (if sr_ptr b1 =? sr_end b1 then sr_underflow b1 else b1)).
(** 45-47 *)
Definition sr_input (b : sreader) : list Z := slice (sr_buf b) (sr_ptr b) (sr_end b - sr_ptr b).
(** 49-57 *)
Definition sr_get (b : sreader) : outcome (sreader * Z) :=
  let c := if sr_ptr b <? sr_end b then at_char (sr_buf b) (sr_ptr b) else 0 in
  do b1 <- sr_move b 1; Ok (b1, c).
(** 59-84: [old] is what is in the memory read into; the results are the memory afterwards and the number returned. The pointer is
    advanced by the number of characters asked for, line 74. *)
Definition sr_read (b : sreader) (old : list Z) : outcome (sreader * list Z * Z) :=
  let size := lenZ old in
  let available := size_t (sr_end b - sr_ptr b) in
  if size <? available then
    do xs <- load_span (sr_buf b) (sr_ptr b) size;
    do dst <- store_span old 0 xs;
    Ok ({| sr_buf := sr_buf b; sr_ptr := sr_ptr b + size; sr_end := sr_end b; sr_src := sr_src b |}, dst, size)
  else
    do xs <- load_span (sr_buf b) (sr_ptr b) available;
    do dst <- store_span old 0 xs;
    let res := available in
    let count := size - available in
    let remainder := count mod lenZ (sr_buf b) in
    let '(ys, src) := if remainder <? count then piece_read (sr_src b) (Z.to_nat (count - remainder)) else ([], sr_src b) in
    do dst <- store_span dst available ys;
    let res := res + lenZ ys in
    let p := if remainder <? count then available + (count - remainder) else available in
    let b1 := sr_underflow {| sr_buf := sr_buf b; sr_ptr := sr_ptr b; sr_end := sr_end b; sr_src := src |} in
    let remainder := Z.min remainder (sr_end b1 - sr_ptr b1) in
    if 0 <? remainder then
      do zs <- load_span (sr_buf b1) (sr_ptr b1) remainder;
      do dst <- store_span dst p zs;
      do b2 <- sr_move b1 remainder;
      Ok (b2, dst, res + remainder)
    else Ok (b1, dst, res).
(** A client that reads blocks, and single characters if the buffer is not empty. *)
(* A client of buffered.hpp:45-84. *)
Inductive srop := SGet | SRead (old : list Z).
Definition sr_step (b : sreader) (o : srop) : outcome (sreader * list Z) :=
  match o with
  | SGet => match sr_input b with [] => Ok (b, []) | _ => do (b1, c) <- sr_get b; Ok (b1, [c]) end
  | SRead old => do (b1, dst, res) <- sr_read b old; Ok (b1, firstn (Z.to_nat res) dst)
  end.
Fixpoint sr_run (b : sreader) (os : list srop) : outcome (sreader * list (list Z)) :=
  match os with
  | [] => Ok (b, [])
  | o :: r => do (b1, x) <- sr_step b o; do (b2, xs) <- sr_run b1 r; Ok (b2, x :: xs)
  end.
