(** C147: lazily evaluated arguments and output parameters. *)
From Coq Require Import ZArith List Bool Lia.
Import ListNotations.
From Verif Require Import LazyModel LazyProofs.
Open Scope Z_scope.

(** try_emplace with a lazy argument, for any keys and any function, throwing or
    not: the function is called exactly when the key is not in the map, nothing
    is moved or destroyed, elements already there stay, every statement gives
    the value that the map holds in the end, and a key counts as new exactly
    when it was not in the map and every earlier attempt with it threw. *)
Theorem C147_try_emplace :
  forall (St V : Type) (call : St -> St * option V) ks m s m' s' es xs,
  lrun (ltry_emplace call) m s ks = (m', s', es, xs) ->
  length xs = length ks /\
  Forall (eq LCall) es /\
  length es = (length (filter is_fresh xs) + length (filter is_thrown xs))%nat /\
  s' = state_after call s (length es) /\
  length m' = (length m + length (filter is_fresh xs))%nat /\
  (forall k v, lfind m k = Some v -> lfind m' k = Some v) /\
  (forall k v, lfind m k = None -> lfind m' k = Some v ->
     exists i, nth_error ks i = Some k /\ nth_error xs i = Some (LGot v true)) /\
  (forall i k v b, nth_error ks i = Some k -> nth_error xs i = Some (LGot v b) ->
     lfind m' k = Some v /\
     (b = true <-> lfind m k = None /\
        forall j, (j < i)%nat -> nth_error ks j = Some k ->
                  nth_error xs j = Some LThrown)) /\
  (forall i k, nth_error ks i = Some k -> nth_error xs i = Some LThrown ->
     lfind m k = None /\
     forall j, (j < i)%nat -> nth_error ks j = Some k ->
               nth_error xs j = Some LThrown).
Proof. intros St V call. exact (try_run call). Qed.
Print Assumptions C147_try_emplace.

(** A counter that throws on every third call. *)
Definition third (s : Z) : Z * option Z :=
  (s + 1, if s mod 3 =? 2 then None else Some (100 + s)).

Example C147_case_try_emplace :
  lrun (ltry_emplace third) [(7, 5)] 0 [1; 7; 1; 2; 3; 3; 2]
  = ([(3, 103); (2, 101); (1, 100); (7, 5)], 4, [LCall; LCall; LCall; LCall],
     [LGot 100 true; LGot 5 false; LGot 100 false; LGot 101 true; LThrown;
      LGot 103 true; LGot 101 false]).
Proof. reflexivity. Qed.

(** A function that does not throw is called once for each different key that
    was not in the map, in the order of first appearance: the key that appears
    as number [j] gets the result of call number [j]. *)
Theorem C147_once_per_new_key :
  forall (St V : Type) (call : St -> St * option V) ks m s m' s' es xs,
  (forall t, snd (call t) <> None) ->
  lrun (ltry_emplace call) m s ks = (m', s', es, xs) ->
  exists fs : list Z,
    NoDup fs /\
    (forall k, In k fs <-> In k ks /\ lfind m k = None) /\
    (forall p q, ks = p ++ q -> exists n,
       forall k, In k (firstn n fs) <-> In k p /\ lfind m k = None) /\
    length es = length fs /\
    forall j k, nth_error fs j = Some k -> lfind m' k = result_of call s j.
Proof. intros St V call. exact (try_total call). Qed.
Print Assumptions C147_once_per_new_key.

Definition counter (s : Z) : Z * option Z := (s + 1, Some (10 * s)).

Example C147_case_once :
  (forall t, snd (counter t) <> None) /\
  lrun (ltry_emplace counter) [(4, 1)] 0 [9; 4; 8; 9; 6]
  = ([(6, 20); (8, 10); (9, 0); (4, 1)], 3, [LCall; LCall; LCall],
     [LGot 0 true; LGot 1 false; LGot 10 true; LGot 0 false; LGot 20 true]).
Proof. split; [discriminate|reflexivity]. Qed.

(** The alternative that the documentation gives (find, then emplace of the
    result) has the same effect and calls the function as often, but searches
    the map again and moves a temporary for every new key. *)
Theorem C147_same_as_alternative :
  forall (St V : Type) (call : St -> St * option V) ks m s
         m1 s1 e1 x1 m2 s2 e2 x2,
  lrun (ltry_emplace call) m s ks = (m1, s1, e1, x1) ->
  lrun (lfind_emplace call) m s ks = (m2, s2, e2, x2) ->
  m1 = m2 /\ s1 = s2 /\ x1 = x2 /\
  count_ev is_call e2 = length e1 /\
  count_ev is_move e2 = length (filter is_fresh x1) /\
  count_ev is_destroy e2 = length (filter is_fresh x1) /\
  count_ev is_find e2 = length (filter is_fresh x1).
Proof. intros St V call. exact (alt_run call). Qed.
Print Assumptions C147_same_as_alternative.

Example C147_case_alternative :
  lrun (lfind_emplace third) [(7, 5)] 0 [1; 7; 2; 3]
  = ([(2, 101); (1, 100); (7, 5)], 3,
     [LCall; LFind; LMove; LDestroy; LCall; LFind; LMove; LDestroy; LCall],
     [LGot 100 true; LGot 5 false; LGot 101 true; LThrown]).
Proof. reflexivity. Qed.

(** With emplace in place of try_emplace the wrapper is not lazy: the function
    is called for every key, known or not, and what it made for a known key is
    destroyed.  Statement number [i] throws exactly when call number [i] does;
    otherwise it gives the value that the map holds in the end, which is new and
    the result of call [i] exactly when the key was not in the map and every
    earlier call with it threw. *)
Theorem C147_emplace_calls_always :
  forall (St V : Type) (call : St -> St * option V) ks m s m' s' es xs,
  lrun (lemplace call) m s ks = (m', s', es, xs) ->
  length xs = length ks /\
  count_ev is_call es = length ks /\ s' = state_after call s (length ks) /\
  count_ev is_move es = O /\ count_ev is_find es = O /\
  (count_ev is_destroy es + length (filter is_fresh xs)
   + length (filter is_thrown xs))%nat = length ks /\
  length m' = (length m + length (filter is_fresh xs))%nat /\
  (forall k v, lfind m k = Some v -> lfind m' k = Some v) /\
  (forall k v, lfind m k = None -> lfind m' k = Some v ->
     exists i, nth_error ks i = Some k /\ nth_error xs i = Some (LGot v true)) /\
  (forall i k x, nth_error ks i = Some k -> nth_error xs i = Some x ->
     match result_of call s i with
     | None => x = LThrown
     | Some v => exists w b, x = LGot w b /\ lfind m' k = Some w /\
         (b = true -> w = v) /\
         (b = true <-> lfind m k = None /\
            forall j, (j < i)%nat -> nth_error ks j = Some k ->
                      result_of call s j = None)
     end).
Proof. intros St V call. exact (emplace_run call). Qed.
Print Assumptions C147_emplace_calls_always.

(** So the two fill a map differently. *)
Theorem C147_emplace_same_map_refuted :
  ~ (forall (call : Z -> Z * option Z) ks m s k,
       lfind (fst (fst (fst (lrun (lemplace call) m s ks)))) k
       = lfind (fst (fst (fst (lrun (ltry_emplace call) m s ks)))) k).
Proof.
  intros H. specialize (H counter [1; 1; 2] [] 0 2). vm_compute in H. discriminate.
Qed.
Print Assumptions C147_emplace_same_map_refuted.

Example C147_case_emplace :
  lrun (lemplace counter) [] 0 [1; 1; 2]
  = ([(2, 20); (1, 0)], 3, [LCall; LCall; LDestroy; LCall],
     [LGot 0 true; LGot 0 false; LGot 20 true]).
Proof. reflexivity. Qed.

(** Converting one wrapper several times calls the function every time.  Over a
    named function object the calls act on that object and on no other; over a
    temporary they act on the wrapper's own copy. *)
Theorem C147_conversions :
  forall (St V : Type) (call : St -> St * option V) n objs,
  (forall i s, nth_error objs i = Some s ->
     exists objs', lz_converts call n objs (make_lazy (Named i))
                   = Some (objs', LRef i, map (result_of call s) (seq 0 n)) /\
       length objs' = length objs /\
       nth_error objs' i = Some (state_after call s n) /\
       forall j, j <> i -> nth_error objs' j = nth_error objs j) /\
  (forall s, lz_converts call n objs (make_lazy (Temp s))
             = Some (objs, LOwn (state_after call s n),
                     map (result_of call s) (seq 0 n))).
Proof.
  intros St V call n objs. split.
  - intros i s H. exact (converts_ref call n objs i s H).
  - intros s. exact (converts_own call n objs s).
Qed.
Print Assumptions C147_conversions.

Example C147_case_conversions :
  lz_converts counter 3 [4; 0] (make_lazy (Named 0))
  = Some ([7; 0], LRef 0, [Some 40; Some 50; Some 60]) /\
  lz_converts counter 2 [4; 0] (make_lazy (Temp 8))
  = Some ([4; 0], LOwn 10, [Some 80; Some 90]).
Proof. split; reflexivity. Qed.

(** An optional of the type of the result is initialised from the wrapper by a
    single call and no move; from the result itself there is a move. *)
Theorem C147_optional :
  forall (St V : Type) (call : St -> St * option V) s v,
  snd (call s) = Some v ->
  oinit call OValue ALazy s = (fst (call s), [LCall], Some (HValue v)) /\
  oinit call OValue AValue s
  = (fst (call s), [LCall; LMove; LDestroy], Some (HValue v)).
Proof.
  intros St V call s v H. cbn. destruct (call s) as [s' r]. cbn in *. subst r.
  split; reflexivity.
Qed.
Print Assumptions C147_optional.

Example C147_case_optional :
  snd (counter 3) = Some 30 /\
  oinit counter OValue ALazy 3 = (4, [LCall], Some (HValue 30)).
Proof. split; reflexivity. Qed.

(** The documentation's own example, std::optional o{ac::lazy{computeValue}},
    leaves the type of the optional to deduction, which takes the wrapper: the
    function is never called and the optional holds no value of its result. *)
Theorem C147_optional_deduced_refuted :
  forall (St V : Type) (call : St -> St * option V) s,
  snd (fst (oinit call (odeduce ALazy) ALazy s)) = [] /\
  fst (fst (oinit call (odeduce ALazy) ALazy s)) = s /\
  ~ exists v, snd (oinit call (odeduce ALazy) ALazy s) = Some (HValue v).
Proof.
  intros St V call s. cbn. split; [reflexivity|]. split; [reflexivity|].
  intros [v H]. discriminate.
Qed.
Print Assumptions C147_optional_deduced_refuted.

Example C147_case_optional_deduced :
  oinit counter (odeduce ALazy) ALazy 3 = (3, [], Some (HLazy 3)) /\
  oinit counter (odeduce AValue) AValue 3
  = (4, [LCall; LMove; LDestroy], Some (HValue 30)).
Proof. split; reflexivity. Qed.

(** Any program over output wrappers has the effect and the results of the
    program in which every wrapper is replaced by the variable it was first
    built for: assignment between wrappers copies values and never makes a
    wrapper name another variable, and variables without a wrapper do not
    change. *)
Theorem C147_out_is_the_variable :
  forall os mem mem' ws' xs,
  orun mem [] os = Some (mem', ws', xs) ->
  length mem' = length mem /\
  length xs = length os /\
  (forall c, nth_error mem' c
             = fst (plain_run (cell_of ws') (nth_error mem) os) c) /\
  xs = snd (plain_run (cell_of ws') (nth_error mem) os) /\
  (forall c, (forall w, In w ws' -> w_cell w <> c) ->
             nth_error mem' c = nth_error mem c) /\
  forall p q mem1 ws1 xs1, os = p ++ q -> orun mem [] p = Some (mem1, ws1, xs1) ->
    forall w u, nth_error ws1 w = Some u -> nth_error ws' w = Some u.
Proof.
  intros os mem mem' ws' xs H.
  destruct (orun_facts _ _ _ _ _ _ H) as (A & B & _ & _ & C).
  destruct (run_plain os mem [] mem' ws' xs [] (nth_error mem)) as [P Q];
    [constructor|exact H|reflexivity|].
  rewrite app_nil_r in P, Q.
  split; [exact A|]. split; [exact B|]. split; [exact P|]. split; [exact Q|].
  split; [exact C|].
  intros p q mem1 ws1 xs1 E G w u Hu. subst os.
  assert (K : exists t, ws' = ws1 ++ t).
  { clear -H G. revert H G. generalize (@nil owrap) as ws. revert mem xs xs1.
    induction p as [|o p IH]; intros mem xs xs1 ws H G; cbn in H, G.
    - injection G as <- <- <-. destruct (orun_facts _ _ _ _ _ _ H) as (_ & _ & K & _). exact K.
    - destruct (ostep mem ws o) as [[[m1 w1] x]|]; [|discriminate].
      destruct (orun m1 w1 (p ++ q)) as [[[m2 w2] ys]|] eqn:E2; [|discriminate].
      destruct (orun m1 w1 p) as [[[m3 w3] zs]|] eqn:E3; [|discriminate].
      injection H as <- <- <-. injection G as <- <- <-. eapply IH; eauto. }
  destruct K as [t ->]. rewrite nth_error_app1; [exact Hu|].
  apply nth_error_Some. congruence.
Qed.
Print Assumptions C147_out_is_the_variable.

Example C147_case_out :
  orun [1; 2; 3] []
    [OpNew KOut 0; OpNew KInout 2; OpPass KOut 1; OpAssignWrap 0 1; OpAssign 2 9;
     OpRead 1; OpRead 0; OpArrow 0 4; OpRead 0]
  = Some ([4; 2; 9],
          [MkWrap KOut 0; MkWrap KInout 2; MkWrap KOut 2],
          [None; None; None; Some 3; Some 9; Some 9; Some 3; None; Some 4]).
Proof. reflexivity. Qed.

(** A wrapper built from a wrapper stands for the same variable, and an
    input-output wrapper is only ever built from an input-output wrapper. *)
Theorem C147_out_kinds :
  forall os mem ws mem' ws' xs,
  orun mem ws os = Some (mem', ws', xs) ->
  forall p k w q, os = p ++ OpPass k w :: q ->
  exists n u u',
    nth_error ws' w = Some u /\ nth_error ws' n = Some u' /\ (w < n)%nat /\
    w_cell u' = w_cell u /\ w_kind u' = k /\ (k = KInout -> w_kind u = KInout).
Proof. exact run_pass_kind. Qed.
Print Assumptions C147_out_kinds.

Example C147_case_kinds :
  orun [5] [] [OpNew KInout 0; OpPass KInout 0; OpPass KOut 1]
  = Some ([5], [MkWrap KInout 0; MkWrap KInout 0; MkWrap KOut 0], [None; None; None]) /\
  orun [5] [] [OpNew KOut 0; OpPass KInout 0] = None.
Proof. split; reflexivity. Qed.

(** Every statement that names existing variables and wrappers is accepted,
    except building an input-output wrapper from an output wrapper. *)
Theorem C147_out_accepted :
  forall mem ws o,
  Forall (fun w => (w_cell w < length mem)%nat) ws ->
  (ostep mem ws o = None <->
   match o with
   | OpNew _ x => (length mem <= x)%nat
   | OpPass k w => (length ws <= w)%nat \/
       (k = KInout /\ exists u, nth_error ws w = Some u /\ w_kind u = KOut)
   | OpAssign w _ | OpRead w | OpArrow w _ => (length ws <= w)%nat
   | OpAssignWrap w u => (length ws <= w)%nat \/ (length ws <= u)%nat
   end).
Proof.
  intros mem ws o F.
  destruct o as [k x|k w|w v|w u|w|w v]; cbn.
  - rewrite <- nth_error_None. destruct (nth_error mem x); split; congruence.
  - rewrite <- nth_error_None. destruct (nth_error ws w) as [a|] eqn:E.
    + destruct k, (w_kind a) eqn:Ek; cbn; split; intros H; try discriminate; auto;
        try (destruct H as [H|[H (b & B1 & B2)]]; congruence).
      right. split; [reflexivity|]. exists a. auto.
    + split; auto.
  - rewrite <- nth_error_None. destruct (nth_error ws w); split; congruence.
  - rewrite <- !nth_error_None. destruct (nth_error ws w) as [a|] eqn:Ea.
    + destruct (nth_error ws u) as [b|] eqn:Eb.
      * assert (L : (w_cell b < length mem)%nat).
        { rewrite Forall_forall in F. apply F. eapply nth_error_In, Eb. }
        destruct (nth_error mem (w_cell b)) eqn:Em.
        -- split; [discriminate|]. intros [C|C]; discriminate.
        -- apply nth_error_None in Em. lia.
      * split; auto.
    + split; auto.
  - rewrite <- nth_error_None. destruct (nth_error ws w); split; congruence.
  - rewrite <- nth_error_None. destruct (nth_error ws w); split; congruence.
Qed.
Print Assumptions C147_out_accepted.

Example C147_case_accepted :
  Forall (fun w => (w_cell w < length [5; 6])%nat) [MkWrap KOut 0; MkWrap KInout 1] /\
  ostep [5; 6] [MkWrap KOut 0; MkWrap KInout 1] (OpPass KInout 0) = None /\
  ostep [5; 6] [MkWrap KOut 0; MkWrap KInout 1] (OpAssignWrap 0 1)
  = Some ([6; 6], [MkWrap KOut 0; MkWrap KInout 1], Some 6).
Proof. split; [repeat constructor|]. split; reflexivity. Qed.
