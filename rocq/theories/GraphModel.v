(** Model of include/actl/graph: traversals, recorders and connectivity.
    Vertices are the ids 0 .. n-1 (random access vertex container); a map from
    vertices is a function.  Maps are only used with vertices of the graph, so
    bounds of the underlying vectors are not modelled. *)
From Coq Require Import ZArith List Bool PeanoNat.
From Verif Require Import Outcome.
Import ListNotations.

(** graph/detail/edge.hpp:13-67: source, target and bundle (id). *)
Record edge := { e_id : nat; e_src : nat; e_tgt : nat }.
(** What the traversals use: vertex_list.hpp:73-75, adjacency_list.hpp:294-299. *)
Record graph := { g_n : nat; g_out : nat -> list edge }.
Definition vertices (g : graph) : list nat := seq 0 (g_n g).

Definition upd {T} (m : nat -> T) (k : nat) (v : T) : nat -> T := fun x => if x =? k then v else m x.

(** ** Visitors *)
(** graph/events.hpp:14-26; [ESearchFinish None] has the null vertex. *)
Inductive event :=
| EInit (u : nat) | ESearchStart (u : nat) | ESearchFinish (u : option nat)
| EDiscover (u : nat) | EStart (u : nat) | EFinish (u : nat)
| ETreeStart (e : edge) | ETreeFinish (e : edge) | ENonTree (e : edge).

(** The tuple of components of a search: reaction to an event
    (invoke_all_matching, functional/invoke.hpp) and the answer to
    is_vertex_discovered (invoke_first_matching). *)
(* graph/traversal/breadth_first_search.hpp:41-79, depth_first_search.hpp *)
Record visitor (S : Type) := { v_step : event -> S -> S; v_disc : S -> nat -> bool }.
Arguments v_step {S}. Arguments v_disc {S}. Arguments Build_visitor {S}.

(** One component; [c_disc] is None if it does not answer is_vertex_discovered. *)
(* functional/tuple/invoke_all_matching.hpp:17-34, invoke_first_matching.hpp:16-40 *)
Record component (S : Type) := { c_step : event -> S -> S; c_disc : option (S -> nat -> bool) }.
Arguments c_step {S}. Arguments c_disc {S}. Arguments Build_component {S}.
Definition c_pair {S T} (a : component S) (b : component T) : component (S * T) := {|
  c_step := fun ev s => (c_step a ev (fst s), c_step b ev (snd s));
  c_disc := match c_disc a, c_disc b with
            | Some d, _ => Some (fun s v => d (fst s) v)
            | None, Some d => Some (fun s v => d (snd s) v)
            | None, None => None
            end |}.
(** A search without an answer to is_vertex_discovered does not compile. *)
(* breadth_first_search.hpp:43, 70; [init_all] is lines 40-41. *)
Definition to_visitor {S} (c : component S) : visitor S :=
  {| v_step := c_step c; v_disc := match c_disc c with Some d => d | None => fun _ _ => true end |}.

Section Search.
  Context {S : Type}.
  Variable V : visitor S.
  Variable g : graph.
  Variable is_terminator : nat -> bool.
  Local Notation step := (v_step V).

  Definition init_all (s : S) : S := fold_left (fun s u => step (EInit u) s) (vertices g) s.

  (** *** breadth_first_search.hpp *)
  (** The lambda of lines 44-52; [inr]: the search is over. *)
  Definition bfs_discover (s : S) (q : list nat) (u : nat) : (S * list nat) + S :=
    let s := step (EDiscover u) s in
    if is_terminator u then inr (step (ESearchFinish (Some u)) s) else inl (s, q ++ [u]).
  (** Lines 58-62; a single source (53-56) is a list of one vertex. *)
  Fixpoint bfs_sources (s : S) (q : list nat) (src : list nat) : (S * list nat) + S :=
    match src with
    | [] => inl (s, q)
    | u :: src =>
        match bfs_discover (step (ESearchStart u) s) q u with
        | inl (s, q) => bfs_sources s q src
        | inr s => inr s
        end
    end.
  (** Lines 68-78. *)
  Fixpoint bfs_edges (s : S) (q : list nat) (es : list edge) : (S * list nat) + S :=
    match es with
    | [] => inl (s, q)
    | e :: es =>
        if v_disc V s (e_tgt e) then bfs_edges (step (ENonTree e) s) q es
        else match bfs_discover (step (ETreeStart e) s) q (e_tgt e) with
             | inl (s, q) => bfs_edges (step (ETreeFinish e) s) q es
             | inr s => inr s
             end
    end.
  (** Lines 64-81. *)
  Fixpoint bfs_loop (fuel : nat) (s : S) (q : list nat) : outcome S :=
    match q with
    | [] => Ok (step (ESearchFinish None) s)
    | u :: q =>
        match fuel with
        | O => NoFuel
        | Datatypes.S fuel =>
            match bfs_edges (step (EStart u) s) q (g_out g u) with
            | inl (s, q) => bfs_loop fuel (step (EFinish u) s) q
            | inr s => Ok s
            end
        end
    end.
  (** Lines 33-82. *)
  Definition bfs (fuel : nat) (s : S) (src : list nat) : outcome S :=
    match bfs_sources (init_all s) [] src with
    | inl (s, q) => bfs_loop fuel s q
    | inr s => Ok s
    end.

  (** *** depth_first_search.hpp *)
  (** Recursive version, lines 49-69; the result is true if a terminator was
      found.  [scan] is the loop 56-66 and line 67, given the recursive call. *)
  Fixpoint scan (rec : nat -> S -> outcome (S * bool)) (u : nat) (es : list edge) (s : S) : outcome (S * bool) :=
    match es with
    | [] => Ok (step (EFinish u) s, false)
    | e :: es =>
        if v_disc V s (e_tgt e) then scan rec u es (step (ENonTree e) s)
        else do (s, b) <- rec (e_tgt e) (step (ETreeStart e) s);
             if (b : bool) then Ok (s, true) else scan rec u es (step (ETreeFinish e) s)
    end.
  Fixpoint recurse (fuel : nat) (u : nat) (s : S) : outcome (S * bool) :=
    match fuel with
    | O => NoFuel
    | Datatypes.S fuel =>
        let s := step (EStart u) (step (EDiscover u) s) in
        if is_terminator u then Ok (s, true) else scan (recurse fuel) u (g_out g u) s
    end.

  (** Iterative version.  An iterator is the list of the remaining edges; a
      stack entry (18-36) is a vertex and an iterator.  The loop 99-120; the
      result also has the final value of [u]. *)
  Fixpoint dfs_loop (fuel : nat) (s : S) (u : nat) (it : list edge) (stack : list (nat * list edge)) : outcome (S * nat) :=
    match fuel with
    | O => NoFuel
    | Datatypes.S fuel =>
        match it with
        | [] =>
            let s := step (EFinish u) s in
            match stack with
            | [] => Ok (s, u)
            | (u, []) :: _ => UB                            (* *it at the end *)
            | (u, e :: it) :: stack => dfs_loop fuel (step (ETreeFinish e) s) u it stack
            end
        | e :: it' =>
            if v_disc V s (e_tgt e) then dfs_loop fuel (step (ENonTree e) s) u it' stack
            else
              let s := step (ETreeStart e) s in
              let v := e_tgt e in
              let s := step (EStart v) (step (EDiscover v) s) in
              if is_terminator v then Ok (s, v)
              else dfs_loop fuel s v (g_out g v) ((u, it) :: stack)
        end
    end.
  (** Lines 80-122. *)
  Definition dfs_visit (fuel : nat) (s : S) (u : nat) : outcome S :=
    let s := step (ESearchStart u) s in
    let s := step (EStart u) (step (EDiscover u) s) in
    do (s, u) <- (if is_terminator u then Ok (s, u) else dfs_loop fuel s u (g_out g u) []);
    Ok (step (ESearchFinish (Some u)) s).
  (** Lines 128-137. *)
  Definition dfs_from (fuel : nat) (s : S) (u : nat) : outcome S := dfs_visit fuel (init_all s) u.
  (** Lines 144-155. *)
  Fixpoint dfs_roots (fuel : nat) (s : S) (us : list nat) : outcome S :=
    match us with
    | [] => Ok s
    | u :: us =>
        if v_disc V s u then dfs_roots fuel s us
        else do s <- dfs_visit fuel s u; dfs_roots fuel s us
    end.
  Definition dfs_all (fuel : nat) (s : S) : outcome S := dfs_roots fuel (init_all s) (vertices g).
End Search.
(** detail/always_false.hpp:11-16 *)
Definition always_false : nat -> bool := fun _ => false.

(** ** Recorders (graph/traversal) *)
(** discovered_flag.hpp:16-34 *)
Definition discovered_flag : component (nat -> bool) := {|
  c_step := fun ev m => match ev with EInit u => upd m u false | EDiscover u => upd m u true | _ => m end;
  c_disc := Some (fun m u => m u) |}.

(** color_recorder.hpp:14-39 *)
Inductive color := White | Gray | Black.
Definition color_recorder : component (nat -> color) := {|
  c_step := fun ev m => match ev with
                        | EInit u => upd m u White
                        | EDiscover u => upd m u Gray
                        | EFinish u => upd m u Black
                        | _ => m
                        end;
  c_disc := Some (fun m u => match m u with White => false | _ => true end) |}.

(** vertex_initializer.hpp:15-31 around a recorder with the map [get]/[put]. *)
Definition vertex_initializer {S T} (get : S -> nat -> T) (put : S -> nat -> T -> S) (eqb : T -> T -> bool) (value : T)
  (base : component S) : component S := {|
  c_step := fun ev s => match ev with EInit u => put s u value | _ => c_step base ev s end;
  c_disc := Some (fun s u => negb (eqb (get s u) value)) |}.

(** distance_recorder.hpp:15-26 *)
Definition distance_recorder : component (nat -> Z) := {|
  c_step := fun ev m => match ev with
                        | ESearchStart u => upd m u 0%Z
                        | ETreeStart e => upd m (e_tgt e) (m (e_src e) + 1)%Z
                        | _ => m
                        end;
  c_disc := None |}.
(** distance_recorder.hpp:38-41 *)
Definition default_distance_recorder : component (nat -> Z) :=
  vertex_initializer (fun m u => m u) upd Z.eqb (-1)%Z distance_recorder.

(** predecessor_recorder.hpp:15-31, 43-48; None is the null vertex. *)
Definition predecessor_recorder : component (nat -> option nat) := {|
  c_step := fun ev m => match ev with
                        | ESearchStart u => upd m u (Some u)
                        | ETreeStart e => upd m (e_tgt e) (Some (e_src e))
                        | _ => m
                        end;
  c_disc := None |}.
Definition opt_eqb (a b : option nat) : bool :=
  match a, b with Some x, Some y => x =? y | None, None => true | _, _ => false end.
Definition default_predecessor_recorder : component (nat -> option nat) :=
  vertex_initializer (fun m u => m u) upd opt_eqb None predecessor_recorder.

(** predecessor_edge_recorder.hpp:15-27 *)
Definition predecessor_edge_recorder : component (nat -> option edge) := {|
  c_step := fun ev m => match ev with ETreeStart e => upd m (e_tgt e) (Some e) | _ => m end;
  c_disc := None |}.

(** time_stamper.hpp:16-38: in time, out time and current time. *)
Record stamps := { in_time : nat -> Z; out_time : nat -> Z; time_now : Z }.
Definition in_out_time_stamper : component stamps := {|
  c_step := fun ev s =>
    match ev with
    | EStart u => {| in_time := upd (in_time s) u (time_now s); out_time := out_time s; time_now := (time_now s + 1)%Z |}
    | EFinish u => {| in_time := in_time s; out_time := upd (out_time s) u (time_now s); time_now := time_now s |}
    | _ => s
    end;
  c_disc := None |}.

(** order.hpp:54-61, for the events used in 71-94: the output sequence. *)
Definition finish_printer : component (list nat) := {|
  c_step := fun ev o => match ev with EFinish u => o ++ [u] | _ => o end; c_disc := None |}.
Definition start_printer : component (list nat) := {|
  c_step := fun ev o => match ev with EStart u => o ++ [u] | _ => o end; c_disc := None |}.

(** The value of a char after the assignment of an int; whether char is signed
    is up to the implementation. *)
(* The language, for the map of char at order.hpp:65. *)
Definition char_of (is_signed : bool) (z : Z) : Z :=
  if is_signed then ((z + 128) mod 256 - 128)%Z else (z mod 256)%Z.
(** order.hpp:19-52: output and state map (of char, 66). *)
Definition inorder_printer (is_signed : bool) : component (list nat * (nat -> Z)) := {|
  c_step := fun ev (s : list nat * (nat -> Z)) =>
    let (o, m) := s in
    match ev with
    | EInit u => (o, upd m u (char_of is_signed (-1)))
    | EDiscover u => (o, upd m u (char_of is_signed 0))
    | ETreeStart e => let u := e_src e in
                      let o := if (0 <? m u)%Z then o ++ [u] else o in
                      (o, if (m u <? 2)%Z then upd m u (char_of is_signed (m u + 1)) else m)
    | EFinish u => ((if (m u <? 2)%Z then o ++ [u] else o), m)
    | _ => s
    end;
  c_disc := Some (fun s u => negb (snd s u =? -1)%Z) |}.

(** order.hpp:71-94 *)
Definition with_flag {S} (c : component S) : visitor (S * (nat -> bool)) :=
  to_visitor (c_pair c discovered_flag).
Definition postorder (fuel : nat) (g : graph) (m : nat -> bool) (s : nat) : outcome (list nat) :=
  omap fst (dfs_from (with_flag finish_printer) g always_false fuel ([], m) s).
Definition preorder (fuel : nat) (g : graph) (m : nat -> bool) (s : nat) : outcome (list nat) :=
  omap fst (dfs_from (with_flag start_printer) g always_false fuel ([], m) s).
Definition topological_sort (fuel : nat) (g : graph) (m : nat -> bool) : outcome (list nat) :=
  omap fst (dfs_all (with_flag finish_printer) g always_false fuel ([], m)).
Definition inorder (is_signed : bool) (fuel : nat) (g : graph) (m : nat -> Z) (s : nat) : outcome (list nat) :=
  omap fst (dfs_from (to_visitor (inorder_printer is_signed)) g always_false fuel ([], m) s).

(** ** Connectivity *)
(** connected_components.hpp:16-29 with 40-45: map and count. *)
Definition cc_recorder : component ((nat -> Z) * Z) := {|
  c_step := fun ev s => match ev with
                        | EDiscover u => (upd (fst s) u (snd s), snd s)
                        | ESearchFinish _ => (fst s, (snd s + 1)%Z)
                        | _ => s
                        end;
  c_disc := None |}.
Definition default_cc_recorder : component ((nat -> Z) * Z) :=
  vertex_initializer (fun s u => fst s u) (fun s u v => (upd (fst s) u v, snd s)) Z.eqb (-1)%Z cc_recorder.
Definition cc_visitor : visitor ((nat -> Z) * Z) :=
  to_visitor default_cc_recorder.

(** detail/component_stack.hpp:14-40: map, stack and counter. [pop] of a vertex
    that is not in the stack reads the top of an empty stack: [cs_ub]. *)
Record cstack := { cs_map : nat -> Z; cs_stack : list nat; cs_n : Z; cs_ub : bool }.
Definition cs_push (c : cstack) (x : nat) : cstack :=
  {| cs_map := cs_map c; cs_stack := x :: cs_stack c; cs_n := cs_n c; cs_ub := cs_ub c |}.
Fixpoint cs_pop_loop (m : nat -> Z) (n : Z) (st : list nat) (last : nat) : (nat -> Z) * list nat * bool :=
  match st with
  | [] => (m, [], true)
  | x :: st => if x =? last then (upd m x n, st, false) else cs_pop_loop (upd m x n) n st last
  end.
Definition cs_pop (c : cstack) (last : nat) : cstack :=
  let '(m, st, ub) := cs_pop_loop (cs_map c) (cs_n c) (cs_stack c) last in
  {| cs_map := m; cs_stack := st; cs_n := (cs_n c + 1)%Z; cs_ub := cs_ub c || ub |}.

(** tarjan_strong_components.hpp:20-67; T = int. *)
Definition int_max : Z := (2 ^ 31 - 1)%Z.
Record tarjan := { tj_c : cstack; tj_low : nat -> Z; tj_not_root : nat -> bool; tj_now : Z }.
Definition tj_relax (e : edge) (s : tarjan) : tarjan :=                         (* 40-47 *)
  let low := tj_low s (e_tgt e) in
  let u := e_src e in
  if (low <? tj_low s u)%Z
  then {| tj_c := tj_c s; tj_low := upd (tj_low s) u low; tj_not_root := upd (tj_not_root s) u true; tj_now := tj_now s |}
  else s.
Definition tj_set (s : tarjan) (u : nat) (x : Z) : tarjan :=
  {| tj_c := tj_c s; tj_low := upd (tj_low s) u x; tj_not_root := tj_not_root s; tj_now := tj_now s |}.
Definition tarjan_finder : component tarjan := {|
  c_step := fun ev (s : tarjan) =>
    match ev with
    | EInit u => tj_set s u 0%Z
    | EStart u => {| tj_c := cs_push (tj_c s) u; tj_low := upd (tj_low s) u (tj_now s + 1)%Z;
                     tj_not_root := tj_not_root s; tj_now := (tj_now s + 1)%Z |}
    | ENonTree e => tj_relax e s
    | ETreeFinish e => tj_set (tj_relax e s) (e_tgt e) int_max
    | EFinish u => if tj_not_root s u then s
                   else {| tj_c := cs_pop (tj_c s) u; tj_low := tj_low s; tj_not_root := tj_not_root s; tj_now := tj_now s |}
    | ESearchFinish (Some u) => tj_set s u int_max
    | _ => s
    end;
  c_disc := Some (fun s u => negb (tj_low s u =? 0)%Z) |}.
Definition tarjan_visitor : visitor tarjan := to_visitor tarjan_finder.
(** 75-85; [cm] is the user's map before the call, maps made by
    make_default_vertex_map start with zeros and falses. *)
Definition tarjan_init (cm : nat -> Z) : tarjan :=
  {| tj_c := {| cs_map := cm; cs_stack := []; cs_n := 0%Z; cs_ub := false |};
     tj_low := fun _ => 0%Z; tj_not_root := fun _ => false; tj_now := 0%Z |}.
Definition find_strong_components (fuel : nat) (g : graph) (cm : nat -> Z) : outcome tarjan :=
  dfs_all tarjan_visitor g always_false fuel (tarjan_init cm).

(** articulation_points.hpp:22-87 with the component stack of edges
    (component_stack.hpp:42-52). *)
Record artic := {
  ap_map : nat -> bool; ap_cmap : nat -> Z; ap_stack : list edge; ap_cn : Z;
  ap_time : nat -> Z; ap_low : nat -> Z; ap_root : nat; ap_now : Z; ap_children : Z }.
Fixpoint ap_pop_while (pred : edge -> bool) (m : nat -> Z) (n : Z) (st : list edge) : (nat -> Z) * list edge :=
  match st with
  | [] => (m, [])
  | e :: st' => if pred e then ap_pop_while pred (upd m (e_id e) n) n st' else (m, st)
  end.
Definition articulation_finder : component artic := {|
  c_step := fun ev (s : artic) =>
    match ev with
    | EInit u =>
        {| ap_map := ap_map s; ap_cmap := ap_cmap s; ap_stack := ap_stack s; ap_cn := ap_cn s;
           ap_time := upd (ap_time s) u 0%Z; ap_low := ap_low s; ap_root := ap_root s; ap_now := ap_now s;
           ap_children := ap_children s |}
    | EStart u =>
        let t := (ap_now s + 1)%Z in
        {| ap_map := ap_map s; ap_cmap := ap_cmap s; ap_stack := ap_stack s; ap_cn := ap_cn s;
           ap_time := upd (ap_time s) u t; ap_low := upd (ap_low s) u t; ap_root := ap_root s; ap_now := t;
           ap_children := ap_children s |}
    | ESearchStart u =>
        {| ap_map := ap_map s; ap_cmap := ap_cmap s; ap_stack := ap_stack s; ap_cn := ap_cn s;
           ap_time := ap_time s; ap_low := ap_low s; ap_root := u; ap_now := ap_now s; ap_children := 0%Z |}
    | ENonTree e =>
        let u := e_src e in
        let vtime := ap_time s (e_tgt e) in
        {| ap_map := ap_map s; ap_cmap := ap_cmap s;
           ap_stack := if (vtime <? ap_time s u)%Z then e :: ap_stack s else ap_stack s;
           ap_cn := ap_cn s; ap_time := ap_time s;
           ap_low := if (vtime <? ap_low s u)%Z then upd (ap_low s) u vtime else ap_low s;
           ap_root := ap_root s; ap_now := ap_now s; ap_children := ap_children s |}
    | ETreeFinish e =>
        let u := e_src e in
        let utime := ap_time s u in
        if (utime <=? ap_low s (e_tgt e))%Z then
          let (m, st) := ap_pop_while (fun e => (utime <=? ap_time s (e_src e))%Z && (utime <=? ap_time s (e_tgt e))%Z)
                           (ap_cmap s) (ap_cn s) (ap_stack s) in
          {| ap_map := if u =? ap_root s then ap_map s else upd (ap_map s) u true;
             ap_cmap := m; ap_stack := st; ap_cn := (ap_cn s + 1)%Z;
             ap_time := ap_time s; ap_low := ap_low s; ap_root := ap_root s; ap_now := ap_now s;
             ap_children := if u =? ap_root s then (ap_children s + 1)%Z else ap_children s |}
        else s
    | ESearchFinish (Some u) =>
        if (1 <? ap_children s)%Z then
          {| ap_map := upd (ap_map s) u true; ap_cmap := ap_cmap s; ap_stack := ap_stack s; ap_cn := ap_cn s;
             ap_time := ap_time s; ap_low := ap_low s; ap_root := ap_root s; ap_now := ap_now s;
             ap_children := ap_children s |}
        else s
    | _ => s
    end;
  c_disc := Some (fun (s : artic) u => negb (ap_time s u =? 0)%Z) |}.
Definition artic_visitor : visitor artic := to_visitor articulation_finder.
Definition artic_init (am : nat -> bool) (cm : nat -> Z) : artic :=
  {| ap_map := am; ap_cmap := cm; ap_stack := []; ap_cn := 0%Z; ap_time := fun _ => 0%Z; ap_low := fun _ => 0%Z;
     ap_root := 0; ap_now := 0%Z; ap_children := 0%Z |}.
(** articulation_points.hpp:95-110 *)
Definition find_articulation_points (fuel : nat) (g : graph) (am : nat -> bool) (cm : nat -> Z) : outcome artic :=
  dfs_all artic_visitor g always_false fuel (artic_init am cm).

(** bridges.hpp:54-106.  The finder looks at the stack of the search: vertex and
    once flag of the top entry.  The search pushes an entry right after
    on_tree_edge_start (depth_first_search.hpp:114-115) and pops it right before
    on_tree_edge_finish (105-106), so the finder keeps its own copy [br_top]. *)
Record bridge := {
  br_out : list edge; br_c : cstack; br_low : nat -> Z; br_not_root : nat -> bool; br_now : Z;
  br_top : list (nat * bool) }.
Section Bridges.
  Variable parallel : bool.                     (* ParallelEdges of bridge_context *)
  (** once_equal<true, !ParallelEdges> (19-36): value and new state. *)
  Definition once (m_x : bool) : bool * bool :=
    if parallel then (if m_x then (true, false) else (false, m_x)) else (true, m_x).
  (** 74-87 *)
  Definition br_relax (e : edge) (s : bridge) : bridge :=
    let v := e_tgt e in
    let '(skip, top) :=
      match br_top s with
      | [] => (false, [])
      | (p, x) :: rest => if p =? v then let (b, x) := once x in (b, (p, x) :: rest) else (false, br_top s)
      end in
    if skip then
      {| br_out := br_out s; br_c := br_c s; br_low := br_low s; br_not_root := br_not_root s; br_now := br_now s; br_top := top |}
    else
      let low := br_low s v in
      let u := e_src e in
      if (low <? br_low s u)%Z
      then {| br_out := br_out s; br_c := br_c s; br_low := upd (br_low s) u low; br_not_root := upd (br_not_root s) u true;
              br_now := br_now s; br_top := top |}
      else {| br_out := br_out s; br_c := br_c s; br_low := br_low s; br_not_root := br_not_root s;
              br_now := br_now s; br_top := top |}.
  Definition bridge_finder : component bridge := {|
    c_step := fun ev (s : bridge) =>
      match ev with
      | EInit u =>
          {| br_out := br_out s; br_c := br_c s; br_low := upd (br_low s) u 0%Z; br_not_root := br_not_root s;
             br_now := br_now s; br_top := br_top s |}
      | ESearchStart u =>                                     (* stack = {} *)
          {| br_out := br_out s; br_c := br_c s; br_low := br_low s; br_not_root := br_not_root s;
             br_now := br_now s; br_top := [] |}
      | EStart u =>
          {| br_out := br_out s; br_c := cs_push (br_c s) u; br_low := upd (br_low s) u (br_now s + 1)%Z;
             br_not_root := br_not_root s; br_now := (br_now s + 1)%Z; br_top := br_top s |}
      | ETreeStart e =>
          {| br_out := br_out s; br_c := br_c s; br_low := br_low s; br_not_root := br_not_root s;
             br_now := br_now s; br_top := (e_src e, true) :: br_top s |}
      | ENonTree e => br_relax e s
      | ETreeFinish e =>
          let s := br_relax e {| br_out := br_out s; br_c := br_c s; br_low := br_low s; br_not_root := br_not_root s;
                                 br_now := br_now s; br_top := tl (br_top s) |} in
          if br_not_root s (e_tgt e) then s
          else {| br_out := br_out s ++ [e]; br_c := br_c s; br_low := br_low s; br_not_root := br_not_root s;
                  br_now := br_now s; br_top := br_top s |}
      | EFinish u =>
          if br_not_root s u then s
          else {| br_out := br_out s; br_c := cs_pop (br_c s) u; br_low := br_low s; br_not_root := br_not_root s;
                  br_now := br_now s; br_top := br_top s |}
      | _ => s
      end;
    c_disc := Some (fun s u => negb (br_low s u =? 0)%Z) |}.
  (* connectivity/bridges.hpp: the search with the component above and its state at the start,
     bridges.hpp:100-131. *)
  Definition bridge_visitor : visitor bridge := to_visitor bridge_finder.
End Bridges.
Definition bridge_init (cm : nat -> Z) : bridge :=
  {| br_out := []; br_c := {| cs_map := cm; cs_stack := []; cs_n := 0%Z; cs_ub := false |};
     br_low := fun _ => 0%Z; br_not_root := fun _ => false; br_now := 0%Z; br_top := [] |}.
(** bridges.hpp:118-134 *)
Definition find_bridges (parallel : bool) (fuel : nat) (g : graph) (cm : nat -> Z) : outcome bridge :=
  dfs_all (bridge_visitor parallel) g always_false fuel (bridge_init cm).
