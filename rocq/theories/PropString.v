(** Properties C13 - C15: split and trim. *)
From Coq Require Import ZArith List Bool Lia Sorted.
From Verif Require Import Outcome StringModel StringProofs.
Import ListNotations.
Local Open Scope Z_scope.

(** * C13 *)
(** Any delimiter predicate: weaving the fields with the delimiters found in
    the string restores it; no field has a delimiter; field count. *)
Theorem C13_split_weave : forall d s,
  weave (split d false s) (filter d s) = s
  /\ Forall (fun f => forall c, In c f -> d c = false) (split d false s)
  /\ (s = [] -> split d false s = [])
  /\ (s <> [] -> length (split d false s) = S (length (filter d s))).
Proof.
  intros d s. rewrite split_keep.
  assert (N : Forall (fun f => forall c, In c f -> d c = false) (fields d s)).
  { eapply Forall_impl; [|apply fields_no_delim]. intros f H c Hc.
    unfold no_delim in H. rewrite forallb_forall in H. apply negb_true_iff. now apply H. }
  destruct s as [|c s]; [repeat split; try constructor; easy|].
  split; [apply weave_fields|]. split; [exact N|]. split; [easy|].
  intros _. apply fields_length.
Qed.
Print Assumptions C13_split_weave.

(** A single delimiter character: join is a left inverse of split. *)
Theorem C13_join_split : forall x s, join x (split (fun c => c =? x) false s) = s.
Proof. intros x s. rewrite split_keep. destruct s as [|c s]; [reflexivity|]. apply join_fields. Qed.
Print Assumptions C13_join_split.

(** ... and split is a left inverse of join on lists of delimiter-free fields,
    except for the list holding only one empty field. *)
Theorem C13_split_join : forall x fs,
  Forall (fun f => ~ In x f) fs -> fs <> [[]] ->
  split (fun c => c =? x) false (join x fs) = fs.
Proof.
  intros x fs F N. rewrite split_keep.
  destruct fs as [|f fs]; [reflexivity|].
  assert (F' : Forall (no_delim (fun c => c =? x)) (f :: fs)).
  { eapply Forall_impl; [|exact F]. intros g H. unfold no_delim. apply forallb_forall.
    intros c Hc. apply negb_true_iff, Z.eqb_neq. congruence. }
  pose proof (fields_join x (f :: fs) ltac:(easy) F') as E.
  destruct (join x (f :: fs)) eqn:J; [|exact E]. simpl in E. congruence.
Qed.
Print Assumptions C13_split_join.

(** "a,,b" *)
Example C13_case : split (fun c => c =? 44) false [97; 44; 44; 98] = [[97]; []; [98]].
Proof. reflexivity. Qed.
Example C13_case_join : Forall (fun f => ~ In 44 f) [[97]; []; [98]] /\ [[97]; []; [98]] <> [[]].
Proof. split; [repeat constructor; simpl; lia|discriminate]. Qed.
(** The excluded list really is an exception. *)
Example C13_single_empty : split (fun c => c =? 44) false (join 44 [[]]) = [].
Proof. reflexivity. Qed.

(** * C14 *)
(** There is a list of located runs, strictly ordered by offset, holding
    exactly the maximal non-empty delimiter-free runs of [s], whose texts are
    the result of split. *)
Theorem C14_split_maximal_runs : forall d s,
  exists located : list (nat * str),
    map snd located = split d true s
    /\ StronglySorted (fun p q => (fst p < fst q)%nat) located
    /\ forall k f, In (k, f) located <->
         exists pre post, length pre = k /\ s = pre ++ f ++ post /\ f <> []
           /\ (forall c, In c f -> d c = false)
           /\ (forall p c, pre = p ++ [c] -> d c = true)
           /\ (forall c q, post = c :: q -> d c = true).
Proof.
  intros d s. exists (located d s). split; [apply located_split|].
  split; [apply located_sorted|]. intros k f. rewrite located_in. unfold runs_at, run.
  assert (N : no_delim d f <-> forall c, In c f -> d c = false).
  { unfold no_delim. rewrite forallb_forall. split; intros H c Hc; apply negb_true_iff, H, Hc. }
  split; intros (pre & post & L & E & NE & F & R); exists pre, post;
    (split; [exact L|split; [exact E|split; [exact NE|split; [now apply N|exact R]]]]).
Qed.
Print Assumptions C14_split_maximal_runs.

Theorem C14_split_is_filtered : forall d s,
  split d true s = filter (fun f => negb (is_nil f)) (split d false s)
  /\ Forall (fun f => f <> [] /\ forall c, In c f -> d c = false) (split d true s).
Proof.
  intros d s. split.
  - rewrite split_remove, split_keep. destruct s; reflexivity.
  - rewrite split_remove. apply Forall_forall. intros f H. apply filter_In in H as [H N].
    split; [now destruct f|]. pose proof (fields_no_delim d s) as F.
    rewrite Forall_forall in F. specialize (F f H). unfold no_delim in F.
    rewrite forallb_forall in F. intros c Hc. apply negb_true_iff. now apply F.
Qed.
Print Assumptions C14_split_is_filtered.

(** ",a,,bc," *)
Example C14_case : split (fun c => c =? 44) true [44; 97; 44; 44; 98; 99; 44] = [[97]; [98; 99]].
Proof. reflexivity. Qed.

(** * C15 *)
Theorem C15_trim_spec : forall f g s, exists p t q,
  trim f g s = Ok t /\ s = p ++ t ++ q
  /\ (forall c, In c p -> f c = true) /\ (forall c, In c q -> g c = true)
  /\ (forall c u, t = c :: u -> f c = false)
  /\ (forall c u, t = u ++ [c] -> g c = false).
Proof.
  intros f g s. destruct (trim_ok f g s) as (p & t & q & E & D & P & Q & F & G).
  rewrite forallb_forall in P, Q. exists p, t, q. auto 10.
Qed.
Print Assumptions C15_trim_spec.

Theorem C15_trim_idempotent : forall f g s t, trim f g s = Ok t -> trim f g t = Ok t.
Proof. exact trim_idempotent. Qed.
Print Assumptions C15_trim_idempotent.

(** The whitespace overload trims exactly tab, newline, vertical tab, form
    feed, carriage return and space. *)
Theorem C15_trim_space : forall s, Forall (fun c => 0 <= c < 256) s ->
  exists p t q, trim_space s = Ok t /\ s = p ++ t ++ q
  /\ (forall c, In c (p ++ q) -> In c [9; 10; 11; 12; 13; 32])
  /\ (forall c u, t = c :: u -> ~ In c [9; 10; 11; 12; 13; 32])
  /\ (forall c u, t = u ++ [c] -> ~ In c [9; 10; 11; 12; 13; 32]).
Proof.
  assert (S : forall c, 0 <= c < 256 ->
            is_space c = true <-> In c [9; 10; 11; 12; 13; 32]).
  { intros c Hc. unfold is_space. rewrite orb_true_iff, Z.ltb_lt, Z.eqb_eq. simpl.
    destruct (Z_lt_ge_dec c 9).
    - assert ((c - 9) mod 256 = c - 9 + 256) as -> by
        (symmetry; apply Z.mod_unique with (-1); lia). lia.
    - rewrite Z.mod_small by lia. lia. }
  intros s B. destruct (C15_trim_spec is_space is_space s) as (p & t & q & E & D & P & Q & F & G).
  exists p, t, q. unfold trim_space. split; [exact E|]. split; [exact D|].
  rewrite Forall_forall in B. subst s.
  split; [|split].
  - intros c Hc. apply S; [apply B; rewrite !in_app_iff in *; tauto|].
    apply in_app_iff in Hc as [Hc|Hc]; auto.
  - intros c u -> Hin. assert (is_space c = true); [|rewrite (F c u) in *; easy].
    apply S; [apply B; rewrite !in_app_iff; simpl; auto|assumption].
  - intros c u -> Hin. assert (is_space c = true); [|rewrite (G c u) in *; easy].
    apply S; [apply B; rewrite !in_app_iff; simpl; auto|assumption].
Qed.
Print Assumptions C15_trim_space.

Example C15_case : trim_space [32; 9; 97; 32; 98; 10] = Ok [97; 32; 98].
Proof. reflexivity. Qed.
Example C15_all : trim_space [32; 32] = Ok [].
Proof. reflexivity. Qed.
