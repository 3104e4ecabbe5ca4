(** Model of the iterators over devices: io/iterator.hpp, with io/io.hpp:35-53.

    The device is not a part of the iterator, which has a pointer to it: the state of
    a program is the device and the iterator.  [read d old] is io::read(d, x) for an
    object [x] that holds [old]: the device afterwards and the new contents of the
    object, nothing when the answer was false.

    Simplifications: after a failed read the contents of the object are not described
    ([None]); copies of an iterator are not modelled. *)
From Coq Require Import ZArith List Bool.
From Verif Require Import Outcome IntTextModel FormatModel DeviceModel BinaryModel ReadModel.
Import ListNotations.
Local Open Scope Z_scope.

Section Input.
  Context {D T : Type} (read : D -> T -> outcome (D * option T)).

  (** [ii_open]: m_device is not null. *)
  (* io/iterator.hpp:43-45 *)
  Record input_iterator := { ii_open : bool; ii_value : option T }.

  (** operator++, io/iterator.hpp:36-41; the object may be read into in any case. *)
  Definition ii_next (d : D) (old : T) (it : input_iterator) : outcome (D * input_iterator) :=
    assert_then (ii_open it)
      (do (d1, v) <- read d (match ii_value it with Some v => v | None => old end);
       Ok (d1, match v with
               | Some _ => {| ii_open := true; ii_value := v |}
               | None => {| ii_open := false; ii_value := None |}
               end)).

  (** The constructor, io/iterator.hpp:26-28; [old] is what the object holds before. *)
  Definition ii_make (d : D) (old : T) : outcome (D * input_iterator) :=
    ii_next d old {| ii_open := true; ii_value := None |}.

  (** operator*, io/iterator.hpp:32-34; the contents after a failed read may be indeterminate. *)
  Definition ii_deref (it : input_iterator) : outcome T :=
    match ii_value it with Some v => Ok v | None => UB end.

  (** A program that takes [n] values: n times operator*, and operator++ between them. *)
  (* as std::copy_n does; no lines in /repo *)
  Fixpoint ii_take (n : nat) (d : D) (old : T) (it : input_iterator) : outcome (list T * (D * input_iterator)) :=
    match n with
    | O => Ok ([], (d, it))
    | S k => do v <- ii_deref it;
             match k with
             | O => Ok ([v], (d, it))
             | _ => do (d1, it1) <- ii_next d old it;
                    do (l, r) <- ii_take k d1 old it1;
                    Ok (v :: l, r)
             end
    end.
End Input.
Arguments input_iterator : clear implicits.

(** ** The devices *)
(** Binary: io/format/binary/binary.hpp:23-25 (deduce_format) and BinaryModel. *)
Definition binary_read (lt : BinaryModel.value -> BinaryModel.value -> bool) (big : bool) (t : ty)
    (s : list Z) (old : BinaryModel.value) : outcome (list Z * option BinaryModel.value) :=
  Ok (match get_value lt big t old s with Some (v, s1) => (s1, Some v) | None => ([], None) end).

(** Text with white space skipped: io/device/wrapper/formatted.hpp:15-26 and ReadModel;
    [cap] is the capacity of a string. *)
Definition text_read (cap : value -> nat) (t : text) (ty : rtype) (m : memory) (old : value) : got :=
  read_arg t (match ty with TStr _ => TStr (cap old) | _ => ty end) m.

(** The format that is deduced for a text device, text.hpp:30,81-83: base 10, nothing is skipped. *)
Definition plain_read (w : Z) (sg : bool) (m : memory) (old : value) : got :=
  execute (int_read w sg 10) VInt m.

(** ** Output *)
(** operator=, io/iterator.hpp:65-67, for one value after another; operator* and operator++ do
    nothing (69-75).  The format is a part of the device, it keeps its state. *)
Fixpoint out_binary (big : bool) (t : ty) (vs : list BinaryModel.value) : list Z :=
  match vs with
  | [] => []
  | v :: vs => put_value big t v ++ out_binary big t vs
  end.
Fixpoint out_text (fuel : nat) (ls : list layer) (args : list arg) : result :=
  match args with
  | [] => Ok (ls, [])
  | a :: args => do (ls1, s1) <- write fuel ls [a];
                 do (ls2, s2) <- out_text fuel ls1 args;
                 Ok (ls2, s1 ++ s2)
  end.
