(** Model of operations that an exception interrupts: containers that consist of several parts and adding
    edges to a graph. As ContainerModel.v, MapModel.v and AdjModel.v, with the steps in which memory is
    allocated or an element is copied made visible: each of them may throw. *)
From Coq Require Import ZArith List Bool Arith.
From Verif Require Import Outcome IntTypes ListLemmas MapModel.
From Verif Require ContainerModel AdjModel.
Import ListNotations.

(** Which of the coming steps throw, in order; no further step throws after the end of the list. *)
(* std::bad_alloc, or an exception of a constructor or an assignment of the element type. *)
Definition schedule := list bool.
Definition throws (sch : schedule) : bool := match sch with b :: _ => b | [] => false end.
Definition next (sch : schedule) : schedule := tl sch.

(** The state after an operation, the remaining schedule and what the operation returned; [None] if it threw. *)
(* The language. *)
Definition result (S R : Type) : Type := S * schedule * option R.

(** ** container/adaptor/queue_using_stacks.hpp *)
Definition queue2 := ContainerModel.queue2.
(** Lines 23-26: the copy of the top is pushed before the element is popped; push of a std::stack has no effect if it throws. *)
Fixpoint epour {A} (sch : schedule) (ins outs : list A) : result (queue2 A) unit :=
  match ins with
  | [] => (ContainerModel.Build_queue2 [] outs, sch, Some tt)
  | x :: rest =>
      if throws sch then (ContainerModel.Build_queue2 ins outs, next sch, None)
      else epour (next sch) rest (x :: outs)
  end.
(** Lines 21-28 *)
Definition efill {A} (sch : schedule) (q : queue2 A) : result (queue2 A) unit :=
  match ContainerModel.m_out q with
  | [] => epour sch (ContainerModel.m_in q) []
  | _ => (q, sch, Some tt)
  end.
(** Lines 45-48; top of an empty stack is UB. *)
Definition etop {A} (sch : schedule) (q : queue2 A) : outcome (result (queue2 A) A) :=
  let '(q, sch, r) := efill sch q in
  match r with
  | None => Ok (q, sch, None)
  | Some _ => match ContainerModel.m_out q with [] => UB | x :: _ => Ok (q, sch, Some x) end
  end.
(** Lines 50-61 *)
Definition epush {A} (sch : schedule) (q : queue2 A) (x : A) : result (queue2 A) unit :=
  if throws sch then (q, next sch, None)
  else (ContainerModel.Build_queue2 (x :: ContainerModel.m_in q) (ContainerModel.m_out q), next sch, Some tt).
(** Lines 63-66; a stack with pop_back *)
Definition epop {A} (sch : schedule) (q : queue2 A) : outcome (result (queue2 A) unit) :=
  let '(q, sch, r) := efill sch q in
  match r with
  | None => Ok (q, sch, None)
  | Some _ => match ContainerModel.m_out q with
              | [] => UB
              | _ :: o => Ok (ContainerModel.Build_queue2 (ContainerModel.m_in q) o, sch, Some tt)
              end
  end.
(** A client that catches the exceptions and goes on; for each operation what was returned. *)
(* A client of queue_using_stacks.hpp:45-66. *)
Inductive qcall (A : Type) := Push (x : A) | Top | Pop.
Arguments Push {A}.
Arguments Top {A}.
Arguments Pop {A}.
(* [Threw]: an exception *)
Inductive qreply (A : Type) := Pushed (x : A) | Seen (x : A) | Popped | Threw.
Arguments Pushed {A}.
Arguments Seen {A}.
Arguments Popped {A}.
Arguments Threw {A}.
Fixpoint erun {A} (sch : schedule) (q : queue2 A) (calls : list (qcall A)) : outcome (queue2 A * list (qreply A)) :=
  match calls with
  | [] => Ok (q, [])
  | c :: calls =>
      do (q, sch, r) <- match c with
        | Push x => let '(q, sch, r) := epush sch q x in Ok (q, sch, match r with Some _ => Pushed x | None => Threw end)
        | Top => do (q, sch, r) <- etop sch q; Ok (q, sch, match r with Some x => Seen x | None => Threw end)
        | Pop => do (q, sch, r) <- epop sch q; Ok (q, sch, match r with Some _ => Popped | None => Threw end)
        end;
      do (q, rs) <- erun sch q calls; Ok (q, r :: rs)
  end.

(** ** container/adaptor/array_as_vector.hpp *)
(** Lines 108-110: the array and the number of elements before the end. *)
Record avec (A : Type) := { av_arr : list A; av_len : nat }.
Arguments av_arr {A}.
Arguments av_len {A}.
Arguments Build_avec {A}.
(* Iteration, lines 29-43 *)
Definition av_list {A} (a : avec A) : list A := firstn (av_len a) (av_arr a).
(** Lines 93-97: the object is made first, then the iterator is advanced, then the object is assigned. [w] is what an
    assignment that throws leaves in the element. Outside of the array: UB, as in ContainerModel.v. *)
Definition av_emplace {A} (sch : schedule) (a : avec A) (x w : A) : outcome (result (avec A) unit) :=
  if throws sch then Ok (a, next sch, None)
  else if av_len a <? length (av_arr a) then
    let t := throws (next sch) in
    Ok (Build_avec (list_set (av_arr a) (av_len a) (if t then w else x)) (S (av_len a)), next (next sch),
        if t then None else Some tt)
  else UB.
(** Lines 99-102 *)
Definition av_pop {A} (a : avec A) : outcome (avec A) :=
  assert_then (negb (av_len a =? 0)) (Ok (Build_avec (av_arr a) (av_len a - 1))).

(** ** map/accounting_map.hpp *)
Section Accounting.
  Context {K : Type}.
  Variable keq : K -> K -> bool.
  Variable vt : ity.
  (** Lines 44-51: the insertion may throw, also if the key is present as the pair is made first; then push_back of the vector
      may throw, if the map is [invertible]. *)
  Definition eget (invertible : bool) (sch : schedule) (m : acc_map (K := K)) (k : K) : result (acc_map (K := K)) Z :=
    if throws sch then (m, next sch, None)
    else
      let (r, inserted) := a_insert keq (acc_range m) k (wrap vt (Z.of_nat (length (acc_range m)))) in
      if invertible && inserted && throws (next sch) then
        ({| acc_range := r; acc_inverse := acc_inverse m |}, next (next sch), None)
      else
        ({| acc_range := r; acc_inverse := if invertible && inserted then acc_inverse m ++ [k] else acc_inverse m |},
         if invertible && inserted then next (next sch) else next sch,
         Some (match a_find keq r k with Some v => v | None => (-1)%Z end)).
End Accounting.

(** ** graph/adjacency_list.hpp *)
Import AdjModel.
(** Lines 324-332 with 97-117 and 214-231. The steps that may throw: resize of the vertices, if they are too few; insertion
    into the list of [u]; insertion into the edge container, if there is one; insertion into the list of
    [v]. Insertion into a container has no effect if it throws. [e0]: see AdjModel.v. *)
Definition eadd (c : config) (e0 : nat) (sch : schedule) (g : graph) (u v p : nat) : outcome (result graph (edge * bool)) :=
  let need := vertex_count g <=? Nat.max u v in
  if need && throws sch then Ok (g, next sch, None)
  else
    let sch := if need then next sch else sch in
    let g := reserve_vertices g u v in
    do ue <- outs g u;
    if throws sch then Ok (g, next sch, None)
    else
      let sch := next sch in
      let '(ue1, (out_edge, ok)) := id_emplace c ue v (if sel_none c then p else e0) in
      if negb ok then Ok (g, sch, Some (default_edge, false))
      else
        do g1 <- set_outs g u ue1;
        if negb (sel_none c) && throws sch then Ok (g1, next sch, None)
        else
          let sch := if sel_none c then sch else next sch in
          let '(el, e) := el_add_edge c (g_edges g1) u v (if sel_none c then 0 else p) in
          let g2 := {| g_vertices := g_vertices g1; g_edges := el |} in
          do g3 <- (if sel_none c then Ok g2 else
                      do ue2 <- outs g2 u;
                      do ue3 <- set_second ue2 out_edge e;
                      set_outs g2 u ue3);
          let b := if sel_none c then out_edge else e in
          let second := (is_undirected c && negb (u =? v)) || is_bidirectional c in
          if second && throws sch then Ok (g3, next sch, None)
          else
            do g4 <- (if is_undirected c then
                        if u =? v then Ok g3 else
                        do ve <- outs g3 v;
                        set_outs g3 v (fst (id_emplace c ve u (if sel_none c then p else e)))
                      else if is_bidirectional c then
                        do vi <- ins g3 v;
                        set_ins g3 v (fst (id_emplace c vi u b))
                      else Ok g3);
            Ok (g4, if second then next sch else sch, Some ({| e_source := u; e_target := v; e_bundle := b |}, true)).
