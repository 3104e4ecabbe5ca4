(** Model of include/actl/string: character classes, split and trim.
    Characters are ASCII codes 0..255 as Z; strings are lists. *)
From Coq Require Import ZArith List Bool.
From Verif Require Import Outcome.
Import ListNotations.
Local Open Scope Z_scope.

Definition str := list Z.

(** char_classes.hpp:12-14; the subtraction is converted to unsigned char. *)
Definition is_digit (c : Z) : bool := (c - 48) mod 256 <? 10.
(** char_classes.hpp:17-19 *)
Definition is_lower (c : Z) : bool := (c - 97) mod 256 <? 26.
(** char_classes.hpp:22-24 *)
Definition is_upper (c : Z) : bool := (c - 65) mod 256 <? 26.
(** char_classes.hpp:27-29: [c & ~0x20] *)
Definition is_alpha (c : Z) : bool := is_upper (Z.ldiff c 32).
(** char_classes.hpp:32-34 *)
Definition is_alphanumeric (c : Z) : bool := is_alpha c || is_digit c.
(** char_classes.hpp:43-45 *)
Definition is_space (c : Z) : bool := ((c - 9) mod 256 <? 5) || (c =? 32).

Section Split.
  Variable is_delimiter : Z -> bool.
  Variable remove_empty : bool.

  (** The vector [res] is never empty inside of the loop; it is kept as the
      pair of all strings but the last, and the last one ([res.back()]). *)
  (* string/split.hpp:18-32 *)
  Definition split_state : Type := list str * str.

  Definition is_nil (s : str) : bool := match s with [] => true | _ => false end.

  (** split.hpp:22-28, one iteration. *)
  Definition split_step (st : split_state) (c : Z) : split_state :=
    let (init, back) := st in
    if negb (is_delimiter c) then (init, back ++ [c])
    else if negb remove_empty || negb (is_nil back) then (init ++ [back], [])
    else (init, back).

  (** split.hpp:18-32; the vector starts with one empty string (line 21). *)
  Definition split (line : str) : list str :=
    let (init, back) := fold_left split_step line ([], []) in
    if (remove_empty || (Nat.eqb (List.length (init ++ [back])) 1)) && is_nil back
    then init
    else init ++ [back].
End Split.

Section Trim.
  Variables skip_left skip_right : Z -> bool.

  (** trim.hpp:18-22.  Iterators are positions: [l] counts from the start,
      [r] is one past the last kept character; [l\[0\]] and [r\[-1\]] outside of
      [l, r) would be a read outside of the string. *)
  Fixpoint trim_left (fuel : nat) (s : str) (l r : nat) : outcome nat :=
    if Nat.eqb l r then Ok l
    else match fuel with
         | O => NoFuel
         | S fuel =>
             match nth_error s l with
             | None => UB
             | Some c => if skip_left c then trim_left fuel s (S l) r else Ok l
             end
         end.

  Fixpoint trim_right (fuel : nat) (s : str) (l r : nat) : outcome nat :=
    if Nat.eqb l r then Ok r
    else match fuel with
         | O => NoFuel
         | S fuel =>
             match nth_error s (r - 1) with
             | None => UB
             | Some c => if skip_right c then trim_right fuel s l (r - 1) else Ok r
             end
         end.

  Definition trim (s : str) : outcome str :=
    do l <- trim_left (List.length s) s 0 (List.length s);
    do r <- trim_right (List.length s) s l (List.length s);
    Ok (firstn (r - l) (skipn l s)).
End Trim.

(** trim.hpp:30-32 *)
Definition trim_space (s : str) : outcome str := trim is_space is_space s.
