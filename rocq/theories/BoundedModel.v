(** Model of the searches with a queue or a stack that the user passes and that has a bounded
    capacity: VertexQueue of breadth_first_search.hpp and Stack of depth_first_search.hpp are template
    parameters.  The code is the one of GraphModel.v; inserting into a full queue or stack fails. *)
From Coq Require Import ZArith List Bool PeanoNat.
From Verif Require Import Outcome GraphModel.
Import ListNotations.

(** Insertion into a container of at most [cap] elements that has [n] of them. *)
(* breadth_first_search.hpp:50, depth_first_search.hpp:115 *)
Definition room {A} (cap n : nat) (x : A) : outcome A := if n <? cap then Ok x else AssertFail.

Section Bounded.
  Context {S : Type}.
  Variable V : visitor S.
  Variable g : graph.
  Variable is_terminator : nat -> bool.
  Variable cap : nat.
  Local Notation step := (v_step V).

  (** breadth_first_search.hpp:44-52 *)
  Definition b_discover (s : S) (q : list nat) (u : nat) : outcome ((S * list nat) + S) :=
    let s := step (EDiscover u) s in
    if is_terminator u then Ok (inr (step (ESearchFinish (Some u)) s))
    else do q <- room cap (length q) (q ++ [u]); Ok (inl (s, q)).
  (** Lines 53-62. *)
  Fixpoint b_sources (s : S) (q : list nat) (src : list nat) : outcome ((S * list nat) + S) :=
    match src with
    | [] => Ok (inl (s, q))
    | u :: src =>
        do r <- b_discover (step (ESearchStart u) s) q u;
        match r with
        | inl (s, q) => b_sources s q src
        | inr s => Ok (inr s)
        end
    end.
  (** Lines 68-78. *)
  Fixpoint b_edges (s : S) (q : list nat) (es : list edge) : outcome ((S * list nat) + S) :=
    match es with
    | [] => Ok (inl (s, q))
    | e :: es =>
        if v_disc V s (e_tgt e) then b_edges (step (ENonTree e) s) q es
        else
          do r <- b_discover (step (ETreeStart e) s) q (e_tgt e);
          match r with
          | inl (s, q) => b_edges (step (ETreeFinish e) s) q es
          | inr s => Ok (inr s)
          end
    end.
  (** Lines 64-81. *)
  Fixpoint b_loop (fuel : nat) (s : S) (q : list nat) : outcome S :=
    match q with
    | [] => Ok (step (ESearchFinish None) s)
    | u :: q =>
        match fuel with
        | O => NoFuel
        | Datatypes.S fuel =>
            do r <- b_edges (step (EStart u) s) q (g_out g u);
            match r with
            | inl (s, q) => b_loop fuel (step (EFinish u) s) q
            | inr s => Ok s
            end
        end
    end.
  (** Lines 33-82; whatever the queue holds before is removed (42-43). *)
  Definition bounded_bfs (fuel : nat) (s : S) (src : list nat) : outcome S :=
    do r <- b_sources (init_all V g s) [] src;
    match r with
    | inl (s, q) => b_loop fuel s q
    | inr s => Ok s
    end.

  (** depth_first_search.hpp:99-120 *)
  Fixpoint d_loop (fuel : nat) (s : S) (u : nat) (it : list edge) (stack : list (nat * list edge)) : outcome (S * nat) :=
    match fuel with
    | O => NoFuel
    | Datatypes.S fuel =>
        match it with
        | [] =>
            let s := step (EFinish u) s in
            match stack with
            | [] => Ok (s, u)
            | (u, []) :: _ => UB
            | (u, e :: it) :: stack => d_loop fuel (step (ETreeFinish e) s) u it stack
            end
        | e :: it' =>
            if v_disc V s (e_tgt e) then d_loop fuel (step (ENonTree e) s) u it' stack
            else
              let s := step (ETreeStart e) s in
              let v := e_tgt e in
              do stack <- room cap (length stack) ((u, it) :: stack);
              let s := step (EStart v) (step (EDiscover v) s) in
              if is_terminator v then Ok (s, v)
              else d_loop fuel s v (g_out g v) stack
        end
    end.
  (** Lines 80-122 and 128-137. *)
  Definition bounded_dfs (fuel : nat) (s : S) (u : nat) : outcome S :=
    let s := step (ESearchStart u) (init_all V g s) in
    let s := step (EStart u) (step (EDiscover u) s) in
    do (s, u) <- (if is_terminator u then Ok (s, u) else d_loop fuel s u (g_out g u) []);
    Ok (step (ESearchFinish (Some u)) s).
End Bounded.
