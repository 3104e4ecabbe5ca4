(** C133: several visitors in one search. *)
From Coq Require Import List Bool Arith Lia.
From Verif Require Import Outcome GraphModel GraphExamples ComposeProofs.
Import ListNotations.

(** ** Specification *)
(** What a visitor does with a sequence of events. *)
Definition reacts {S} (c : component S) (evs : list event) (s : S) : S := fold_left (fun s ev => c_step c ev s) evs s.
(** [run V s] is a search with the visitor [V] from the state [s]. The visitor [a] answers
    is_vertex_discovered. If the search with [a] alone ends, there is a sequence of events such that
    any other visitor used together with [a] reacts to these events and nothing else changes: [a] ends in
    the same state. The other visitor is after [a], and may answer is_vertex_discovered too, or
    before [a], and does not. *)
Definition composes (run : forall S, visitor S -> S -> outcome S) : Prop :=
  forall A (a : component A) (s : A), c_disc a <> None ->
  match run A (to_visitor a) s with
  | Ok s' => exists evs, s' = reacts a evs s /\
      (forall B (b : component B) t, run _ (to_visitor (c_pair a b)) (s, t) = Ok (s', reacts b evs t)) /\
      (forall B (b : component B) t, c_disc b = None -> run _ (to_visitor (c_pair b a)) (t, s) = Ok (reacts b evs t, s'))
  | NoFuel => forall B (b : component B) t, run _ (to_visitor (c_pair a b)) (s, t) = NoFuel /\
      (c_disc b = None -> run _ (to_visitor (c_pair b a)) (t, s) = NoFuel)
  | _ => False
  end.

(** ** Proofs *)
Definition recorder : component (list event) := {| c_step := fun ev l => l ++ [ev]; c_disc := None |}.

Lemma composes_sim (run : forall S, visitor S -> S -> outcome S) :
  (forall S (V : visitor S) s, defined (run S V s)) ->
  (forall S S' (V : visitor S) (V' : visitor S') (R : S -> S' -> Prop),
    (forall ev s s', R s s' -> R (v_step V ev s) (v_step V' ev s')) ->
    (forall s s' u, R s s' -> v_disc V s u = v_disc V' s' u) ->
    forall s s', R s s' -> same_out R (run S V s) (run S' V' s')) -> composes run.
Proof.
  intros Def Sim A a s D. destruct (c_disc a) as [d|] eqn:Da; [clear D|congruence].
  set (rs := fun (x : A) (y : A * list event) => x = fst y /\ x = reacts a (snd y) s).
  assert (X : same_out rs (run _ (to_visitor a) s) (run _ (to_visitor (c_pair a recorder)) (s, []))).
  { apply Sim; [| |split; reflexivity].
    - intros ev x [y l] [-> E]. cbn [fst snd] in *. split; [reflexivity|]. cbn. unfold reacts. rewrite fold_left_app. cbn. rewrite E. reflexivity.
    - intros x [y l] u [-> _]. cbn. now rewrite Da. }
  assert (Y : forall B (b : component B) t,
    same_out (fun (x : A * list event) (y : A * B) => fst x = fst y /\ snd y = reacts b (snd x) t)
      (run _ (to_visitor (c_pair a recorder)) (s, [])) (run _ (to_visitor (c_pair a b)) (s, t))).
  { intros B b t. apply Sim; [| |split; reflexivity].
    - intros ev [x l] [y v] [E F]. cbn [fst snd] in *. subst y v. split; [reflexivity|]. cbn. unfold reacts. rewrite fold_left_app. reflexivity.
    - intros [x l] [y v] u [E _]. cbn in *. rewrite Da. cbn. now rewrite E. }
  assert (Z : forall B (b : component B) t, c_disc b = None ->
    same_out (fun (x : A * list event) (y : B * A) => fst x = snd y /\ fst y = reacts b (snd x) t)
      (run _ (to_visitor (c_pair a recorder)) (s, [])) (run _ (to_visitor (c_pair b a)) (t, s))).
  { intros B b t Db. apply Sim; [| |split; reflexivity].
    - intros ev [x l] [v y] [E F]. cbn [fst snd] in *. subst y v. split; [reflexivity|]. cbn. unfold reacts. rewrite fold_left_app. reflexivity.
    - intros [x l] [v y] u [E _]. cbn in *. rewrite Da, Db. cbn. now rewrite E. }
  pose proof (Def _ (to_visitor a) s) as Df.
  destruct (run _ (to_visitor a) s) as [s'| | | |]; try contradiction;
    destruct (run _ (to_visitor (c_pair a recorder)) (s, [])) as [[s1 l]| | | |]; try contradiction.
  - destruct X as [X1 X2]. cbn [fst snd] in *. exists l. split; [exact X2|]. split.
    + intros B b t. specialize (Y B b t). destruct (run _ (to_visitor (c_pair a b)) (s, t)) as [[y v]| | | |]; try contradiction.
      destruct Y as [Y1 Y2]. cbn [fst snd] in *. congruence.
    + intros B b t Db. specialize (Z B b t Db). destruct (run _ (to_visitor (c_pair b a)) (t, s)) as [[v y]| | | |]; try contradiction.
      destruct Z as [Z1 Z2]. cbn [fst snd] in *. congruence.
  - intros B b t. split.
    + specialize (Y B b t). destruct (run _ (to_visitor (c_pair a b)) (s, t)); try contradiction. reflexivity.
    + intros Db. specialize (Z B b t Db). destruct (run _ (to_visitor (c_pair b a)) (t, s)); try contradiction. reflexivity.
Qed.

(** ** C133 *)
Theorem C133_breadth_first : forall g tm fuel src, composes (fun S V s => bfs V g tm fuel s src).
Proof. intros. apply composes_sim; intros; [apply bfs_defined | now apply bfs_sim]. Qed.
Theorem C133_depth_first : forall g tm fuel u, composes (fun S V s => dfs_from V g tm fuel s u).
Proof. intros. apply composes_sim; intros; [apply dfs_from_defined | now apply dfs_from_sim]. Qed.
Theorem C133_depth_first_all : forall g tm fuel, composes (fun S V s => dfs_all V g tm fuel s).
Proof. intros. apply composes_sim; intros; [apply dfs_all_defined | now apply dfs_all_sim]. Qed.

(** The order in which the visitors are given does not matter if one of them answers. *)
Definition swapped {A B} (x : outcome (A * B)) : outcome (B * A) := omap (fun p => (snd p, fst p)) x.
Theorem C133_any_order : forall A B (a : component A) (b : component B) g tm fuel s t, c_disc a <> None -> c_disc b = None ->
  (forall src, bfs (to_visitor (c_pair b a)) g tm fuel (t, s) src = swapped (bfs (to_visitor (c_pair a b)) g tm fuel (s, t) src)) /\
  (forall u, dfs_from (to_visitor (c_pair b a)) g tm fuel (t, s) u = swapped (dfs_from (to_visitor (c_pair a b)) g tm fuel (s, t) u)) /\
  dfs_all (to_visitor (c_pair b a)) g tm fuel (t, s) = swapped (dfs_all (to_visitor (c_pair a b)) g tm fuel (s, t)).
Proof.
  intros A B a b g tm fuel s t Da Db.
  assert (G : forall run, composes run -> run _ (to_visitor (c_pair b a)) (t, s) = swapped (run _ (to_visitor (c_pair a b)) (s, t))).
  { intros run C. specialize (C A a s Da). destruct (run A (to_visitor a) s) as [s'| | | |]; try contradiction.
    - destruct C as (evs & _ & C1 & C2). now rewrite C1, (C2 B b t Db).
    - destruct (C B b t) as [C1 C2]. now rewrite C1, (C2 Db). }
  split; [|split].
  - intros src. exact (G _ (C133_breadth_first g tm fuel src)).
  - intros u. exact (G _ (C133_depth_first g tm fuel u)).
  - exact (G _ (C133_depth_first_all g tm fuel)).
Qed.

(** ** Cases *)
Example C133_case : c_disc discovered_flag <> None /\ c_disc (finish_printer) = None /\
  let g := undirected 4 [(0,1); (1,2); (2,0); (2,3)] in
  omap fst (dfs_from (to_visitor (c_pair finish_printer discovered_flag)) g always_false 50 ([], fun _ => true) 1) = Ok [3; 2; 0; 1] /\
  omap snd (dfs_from (to_visitor (c_pair discovered_flag finish_printer)) g always_false 50 (fun _ => true, []) 1) = Ok [3; 2; 0; 1] /\
  omap (fun p => fst (snd p)) (dfs_from (to_visitor (c_pair color_recorder (c_pair start_printer finish_printer))) g always_false 50
    (fun _ => White, ([], [])) 1) = Ok [1; 0; 2; 3].
Proof. split; [discriminate|]. split; [reflexivity|]. cbv zeta. split; [vm_compute; reflexivity|]. split; vm_compute; reflexivity. Qed.

Print Assumptions C133_breadth_first.
Print Assumptions C133_depth_first.
Print Assumptions C133_depth_first_all.
Print Assumptions C133_any_order.
