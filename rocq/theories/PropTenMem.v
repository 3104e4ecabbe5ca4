(** C141: what the elements of a tensor are after construction, writes, taking
    views, swap and move. *)
From Coq Require Import ZArith List Bool PeanoNat Lia.
From Verif Require Import Outcome ListLemmas ContainerModel ContainerProofs TenMemModel TenMemProofs.
Import ListNotations.
Local Open Scope Z_scope.

(** A tensor constructed from its dimensions has a block of its own, apart from
    all the tensors there were, which keep their elements; its elements must be
    written before they are read. *)
Theorem C141_new : forall T (m : @memory T) ds, fits ds ->
  let '(m', t) := t_new m ds in
  t_dims t = ds /\ t_size t = zprod ds /\ owns m' t /\
  (forall is, in_shape ds is -> t_at m' t is = UB) /\
  forall u, valid m u -> valid m' u /\ apart t u /\ forall is, t_at m' u is = t_at m u is.
Proof.
  intros T m ds F. pose proof (t_new_ok m ds F) as H. unfold t_new in *. cbn [t_dims] in *.
  destruct H as (_ & O & A & Fr). split; [reflexivity|]. split; [now apply product_fits|]. auto.
Qed.
Print Assumptions C141_new.

(** With a value: all the elements are equal to it. *)
Theorem C141_fill : forall T (m : @memory T) ds x, fits ds ->
  exists m' t, t_fill m ds x = Ok (m', t) /\ t_dims t = ds /\ owns m' t /\
    t_elems m' t = Ok (repeat x (Z.to_nat (zprod ds))) /\
    (forall is, in_shape ds is -> t_at m' t is = Ok x) /\
    forall u, valid m u -> valid m' u /\ apart t u /\ forall is, t_at m' u is = t_at m u is.
Proof.
  intros T m ds x F. pose proof (zprod_nonneg ds (proj1 F)) as P.
  pose proof (write_new_ok m ds (repeat x (Z.to_nat (zprod ds))) F) as H.
  unfold t_fill. unfold t_new in *. unfold t_size. cbn [t_dims].
  replace (compute_product ds) with (zprod ds) in * by now rewrite product_fits.
  destruct H as (m' & E & D & O & X & Fr); [rewrite repeat_length; lia|].
  eexists m', _. split; [exact E|]. split; [exact D|]. split; [exact O|]. split; [exact X|].
  split; [|exact Fr].
  intros is S. apply elems_ok in X; [|now apply owns_valid]. destruct X as [_ X].
  rewrite D in X. destruct (X is S) as (y & N & A). rewrite A. f_equal.
  apply nth_error_In in N. now apply repeat_spec in N.
Qed.
Print Assumptions C141_fill.

(** With a range: its elements in row-major order; a range of another length is
    rejected. *)
Theorem C141_copy : forall T (m : @memory T) ds xs, fits ds ->
  (Z.of_nat (length xs) = zprod ds ->
   exists m' t, t_copy m ds xs = Ok (m', t) /\ t_dims t = ds /\ owns m' t /\
     t_elems m' t = Ok xs /\
     (forall is, in_shape ds is ->
        exists x, nth_error xs (Z.to_nat (row_major ds is)) = Some x /\ t_at m' t is = Ok x) /\
     forall u, valid m u -> valid m' u /\ apart t u /\ forall is, t_at m' u is = t_at m u is) /\
  (Z.of_nat (length xs) <> zprod ds -> t_copy m ds xs = AssertFail).
Proof.
  intros T m ds xs F. pose proof (write_new_ok m ds xs F) as H.
  unfold t_copy. unfold t_new in *. unfold t_size. cbn [t_dims].
  replace (compute_product ds) with (zprod ds) in * by now rewrite product_fits.
  split; intro L.
  - rewrite (proj2 (Z.eqb_eq _ _)) by lia. cbn [assert_then]. rewrite firstn_all2 by lia.
    destruct (H L) as (m' & E & D & O & X & Fr).
    eexists m', _. split; [exact E|]. split; [exact D|]. split; [exact O|]. split; [exact X|].
    split; [|exact Fr].
    apply elems_ok in X; [|now apply owns_valid]. destruct X as [_ X]. rewrite D in X. exact X.
  - now rewrite (proj2 (Z.eqb_neq _ _)) by lia.
Qed.
Print Assumptions C141_copy.

(** Iteration visits the elements in row-major order: it gives [xs] exactly when
    [xs] has the size of the tensor and reading at every multi-index gives the
    element of [xs] at its row-major position. *)
Theorem C141_iteration : forall T (m : @memory T) t xs, valid m t ->
  (t_elems m t = Ok xs <->
   Z.of_nat (length xs) = zprod (t_dims t) /\
   forall is, in_shape (t_dims t) is ->
     exists x, nth_error xs (Z.to_nat (row_major (t_dims t) is)) = Some x /\ t_at m t is = Ok x).
Proof. intros T m t xs V. now apply elems_ok. Qed.
Print Assumptions C141_iteration.

(** A write changes exactly one element: no other element of the tensor and no
    element of a tensor apart from it. *)
Theorem C141_write : forall T (m : @memory T) t is x, valid m t ->
  (in_shape (t_dims t) is ->
   exists m', t_set m t is x = Ok m' /\ t_at m' t is = Ok x /\
     (forall js, in_shape (t_dims t) js -> js <> is -> t_at m' t js = t_at m t js) /\
     (forall u, valid m u -> valid m' u /\ (owns m u -> owns m' u) /\
        (apart t u -> forall js, in_shape (t_dims u) js -> t_at m' u js = t_at m u js))) /\
  (Forall (fun i => 0 <= i) is -> ~ in_shape (t_dims t) is ->
   t_set m t is x = AssertFail /\ t_at m t is = AssertFail).
Proof.
  intros T m t is x V. split.
  - now apply set_ok.
  - intros N S. unfold t_set, t_at. now rewrite get_index_rejects.
Qed.
Print Assumptions C141_write.

(** operator[] gives a view of the slice: reading and writing the view at [is]
    is reading and writing the tensor at [i :: is]; iteration over the view
    gives the [i]-th part of the iteration over the tensor; an index outside
    the first dimension is rejected. *)
Theorem C141_view : forall T (m : @memory T) t d ds i, valid m t -> t_dims t = d :: ds -> 0 <= i ->
  (i < d ->
   exists v, t_sub t i = Ok v /\ t_dims v = ds /\ valid m v /\
     (forall is, in_shape ds is ->
        t_at m v is = t_at m t (i :: is) /\ forall x, t_set m v is x = t_set m t (i :: is) x) /\
     (forall xs, t_elems m t = Ok xs ->
        t_elems m v = Ok (firstn (Z.to_nat (zprod ds)) (skipn (Z.to_nat (i * zprod ds)) xs)))) /\
  (d <= i -> t_sub t i = AssertFail).
Proof.
  intros T m t d ds i V E Hi. split; intro H.
  - destruct (sub_ok m t d ds i V E (conj Hi H)) as (v & S & Vv & Dv & _).
    exists v. split; [assumption|]. split; [assumption|]. split; [assumption|]. split.
    + intros is Si. now apply (sub_at m t d ds i v is V E (conj Hi H) S Si).
    + intros xs X. exact (sub_elems m t d ds i v xs V E (conj Hi H) S X).
  - unfold t_sub. rewrite E. rewrite (proj2 (Z.ltb_ge i d)) by lia. now rewrite andb_false_r.
Qed.
Print Assumptions C141_view.

(** Views of different slices have no common element, and a view is apart from
    whatever its tensor is apart from. *)
Theorem C141_views_apart : forall T (m : @memory T) t d ds i j v w, valid m t -> t_dims t = d :: ds ->
  0 <= i < d -> 0 <= j < d -> i <> j -> t_sub t i = Ok v -> t_sub t j = Ok w ->
  apart v w /\ forall u, valid m u -> apart t u -> apart v u.
Proof.
  intros T m t d ds i j v w V E Hi Hj Q Sv Sw. split; [now apply (sub_apart m t d ds i j)|].
  intros u Vu. destruct (sub_ok m t d ds i V E Hi) as (v' & Sv' & Vv & Dv & b & o & D & Dd).
  rewrite Sv in Sv'. injection Sv' as <-. unfold apart. rewrite D, Dd, Dv, E.
  destruct (t_data u) as [[bu ou]|]; [|trivial].
  pose proof (zprod_nonneg ds (proj1 (fits_tail d ds i ltac:(rewrite <- E; apply V) Hi))). cbn [zprod]. nia.
Qed.
Print Assumptions C141_views_apart.

(** swap exchanges the elements, whether they are behind a pointer or in the
    object (for fixed dimensions with at most 16 elements); other tensors keep
    their elements. *)
Theorem C141_swap : forall T (m : @memory T) l r, owns m l -> owns m r ->
  (forall m' l' r', swap_pointer m l r = (m', l', r') ->
     owns m' l' /\ owns m' r' /\ t_dims l' = t_dims r /\ t_dims r' = t_dims l /\
     (forall is, t_at m' l' is = t_at m r is /\ t_at m' r' is = t_at m l is) /\
     forall u, valid m u -> forall is, t_at m' u is = t_at m u is) /\
  (t_dims l = t_dims r ->
   exists m' l' r', swap_inline m l r = Ok (m', l', r') /\
     owns m' l' /\ owns m' r' /\ t_dims l' = t_dims r /\ t_dims r' = t_dims l /\
     (forall is, t_at m' l' is = t_at m r is /\ t_at m' r' is = t_at m l is) /\
     forall u, valid m u -> zprod (t_dims u) <> 0 -> apart l u -> apart r u ->
       forall is, t_at m' u is = t_at m u is).
Proof.
  intros T m l r Ol Or. split.
  - intros m' l' r' E. unfold swap_pointer in E. injection E as <- <- <-. destruct l as [dl al], r as [dr ar]. cbn [t_dims t_data] in *. auto 9.
  - intro ED. pose proof Ol as (Fl & b & x & Dl & Nb & Lx). pose proof Or as (Fr & c & y & Dr & Nc & Ly).
    unfold swap_inline. rewrite Dl, Dr, Nb, Nc. eexists _, _, _. split; [reflexivity|].
    assert (Lxy : length x = length y) by (rewrite ED in Lx; lia).
    assert (N1 : exists z, nth_error (list_set m b y) c = Some z /\ length z = length x).
    { destruct (Nat.eq_dec b c) as [->|Q].
      - exists y. split; [eapply list_set_nth_same; eassumption|lia].
      - exists y. split; [now rewrite list_set_other|lia]. }
    destruct N1 as (z & Nz & Lz).
    assert (Ob : forall t, owns m t -> owns (list_set (list_set m b y) c x) t).
    { intros t Ot. eapply owns_list_set; [exact Nz|lia|]. eapply owns_list_set; [exact Nb|lia|exact Ot]. }
    assert (Rc : nth_error (list_set (list_set m b y) c x) c = Some x) by (eapply list_set_nth_same; exact Nz).
    assert (Rb : nth_error (list_set (list_set m b y) c x) b = Some y).
    { destruct (Nat.eq_dec b c) as [->|Q]; [congruence|].
      rewrite list_set_other by congruence. eapply list_set_nth_same; exact Nb. }
    split; [now apply Ob|]. split; [now apply Ob|]. split; [assumption|]. split; [now symmetry|]. split.
    + intro is. unfold t_at, t_addr, mread. rewrite Dl, Dr, ED. cbn [bind fst snd].
      rewrite Rc, Rb, Nb, Nc. auto.
    + intros u (Fu & bu & ou & cu & Du & Nu & Ou & Lu) Nz' Al Ar is.
      pose proof (zprod_nonneg _ (proj1 Fu)). unfold apart in Al, Ar. rewrite Dl, Du in Al. rewrite Dr, Du in Ar.
      assert (b <> bu).
      { intros ->. rewrite Nb in Nu. injection Nu as <-. destruct Al as [Al|Al]; [contradiction|]. lia. }
      assert (c <> bu).
      { intros ->. rewrite Nc in Nu. injection Nu as <-. destruct Ar as [Ar|Ar]; [contradiction|]. lia. }
      unfold t_at, t_addr, mread. rewrite Du. cbn [bind fst snd]. now rewrite !list_set_other by congruence.
Qed.
Print Assumptions C141_swap.

(** After swap the views taken before belong to the other tensor when the
    elements are behind a pointer, and stay with the object otherwise. *)
Theorem C141_swap_views : forall T (m : @memory T) l r i v, owns m l -> owns m r ->
  t_sub l i = Ok v ->
  (forall m' l' r', swap_pointer m l r = (m', l', r') ->
     t_sub r' i = Ok v /\ forall is, t_at m' v is = t_at m v is) /\
  (t_dims l = t_dims r -> forall m' l' r', swap_inline m l r = Ok (m', l', r') ->
     t_sub l' i = Ok v /\
     forall d ds is, t_dims l = d :: ds -> 0 <= i < d -> in_shape ds is ->
       t_at m' v is = t_at m r (i :: is)).
Proof.
  intros T m l r i v Ol Or S. split.
  - intros m' l' r' E. unfold swap_pointer in E. injection E as <- <- <-. destruct l as [dl al]. auto.
  - intros ED m' l' r' E.
    destruct (proj2 (C141_swap T m l r Ol Or) ED) as (m2 & l2 & r2 & E2 & O2 & _ & D2 & _ & A & _).
    rewrite E in E2. injection E2 as <- <- <-.
    assert (l' = l).
    { unfold swap_inline in E. destruct (t_data l) as [[? ?]|]; [|discriminate].
      destruct (t_data r) as [[? ?]|]; [|discriminate].
      destruct (nth_error m n); [|discriminate]. destruct (nth_error m n0); [|discriminate]. now injection E as _ <- _. }
    subst l'. split; [exact S|]. intros d ds is Ed Hi Si.
    rewrite <- (proj1 (A (i :: is))).
    exact (proj1 (sub_at m' l d ds i v is (owns_valid _ _ O2) Ed Hi S Si)).
Qed.
Print Assumptions C141_swap_views.

(** Hence what a view of a fixed tensor shows after a swap depends on whether
    the tensor has more than 16 elements. *)
Theorem C141_swap_views_refuted :
  exists (m : @memory Z) l r v m1 l1 r1 m2 l2 r2,
    owns m l /\ owns m r /\ t_dims l = t_dims r /\ t_sub l 1 = Ok v /\
    swap_pointer m l r = (m1, l1, r1) /\ swap_inline m l r = Ok (m2, l2, r2) /\
    t_at m v [0] = Ok 3 /\ t_at m1 v [0] = Ok 3 /\ t_at m2 v [0] = Ok 7.
Proof.
  exists [[Some 1; Some 2; Some 3; Some 4]; [Some 5; Some 6; Some 7; Some 8]],
    {| t_dims := [2; 2]; t_data := Some (0%nat, 0) |}, {| t_dims := [2; 2]; t_data := Some (1%nat, 0) |}.
  eexists _, _, _, _, _, _, _.
  assert (F : fits [2; 2]) by (split; [repeat constructor; lia|vm_compute; reflexivity]).
  split; [split; [exact F|]; eexists 0%nat, _; repeat split|].
  split; [split; [exact F|]; eexists 1%nat, _; repeat split|].
  repeat split.
Qed.
Print Assumptions C141_swap_views_refuted.

(** The new tensor has the elements of the source of a move, and the views of
    the source are views of it. *)
Theorem C141_move : forall T (m : @memory T) dyn t, valid m t ->
  let '(n, old) := t_move dyn t in
  valid m n /\ t_dims n = t_dims t /\ (forall is, t_at m n is = t_at m t is) /\ t_elems m n = t_elems m t /\
  forall i, t_sub n i = t_sub t i.
Proof. intros T m dyn [ds a] V. cbn. auto. Qed.
Print Assumptions C141_move.

(** The source does not become an empty tensor: it keeps a nonzero size and no
    element of it may be read, written or iterated over.  With a rank known at
    run time its rank is 0 and its size 1, whatever they were. *)
Theorem C141_moved_from_refuted : forall T (m : @memory T) t, valid m t ->
  let old := snd (t_move false t) in
  let old' := snd (t_move true t) in
  t_size old = zprod (t_dims t) /\
  (zprod (t_dims t) <> 0 -> t_elems m old = UB) /\
  (forall is x, in_shape (t_dims t) is -> t_at m old is = UB /\ t_set m old is x = UB) /\
  t_size old' = 1 /\ t_elems m old' = UB /\ t_at m old' [] = UB.
Proof.
  intros T m t V old old'. pose proof (proj1 V) as F. pose proof (product_fits _ F) as P.
  unfold old, old', t_move, t_size. cbn [snd t_dims t_data].
  split; [assumption|]. split; [|split; [|split; [reflexivity|split; reflexivity]]].
  - intro N. unfold t_elems, t_size. cbn [t_data t_dims]. rewrite P. now rewrite (proj2 (Z.eqb_neq _ _)).
  - intros is x S. unfold t_at, t_set. cbn [t_dims]. rewrite get_index_ok by (assumption || destruct F; lia).
    split; reflexivity.
Qed.
Print Assumptions C141_moved_from_refuted.

(** A list of dimensions of another length than the rank is not rejected: a
    shorter one is read past its end, of a longer one the rest is dropped. *)
Theorem C141_dims_refuted : forall n il,
  (length il = n -> dims_of_list n il = Ok il) /\
  ((length il < n)%nat -> dims_of_list n il = UB) /\
  ((n < length il)%nat -> exists ds, dims_of_list n il = Ok ds /\ length ds = n /\ ds <> il).
Proof.
  intros n il. unfold dims_of_list. repeat split; intro L.
  - rewrite (proj2 (Nat.ltb_ge _ _)) by lia. now rewrite firstn_all2 by lia.
  - now rewrite (proj2 (Nat.ltb_lt _ _)) by lia.
  - rewrite (proj2 (Nat.ltb_ge _ _)) by lia. eexists. split; [reflexivity|].
    assert (Q : length (firstn n il) = n) by (rewrite firstn_length; lia). split; [assumption|].
    intro E. rewrite E in Q. lia.
Qed.
Print Assumptions C141_dims_refuted.

(** ** Cases *)
Example C141_case :
  let m0 := [[Some 100; Some 101; None]] in
  let u := t_view [3] (0%nat, 0) in
  match t_copy m0 [2; 3] [1; 2; 3; 4; 5; 6] with
  | Ok (m, t) =>
      match t_sub t 1 with
      | Ok v =>
          t_elems m v = Ok [4; 5; 6] /\ t_at m v [2] = Ok 6 /\ t_at m t [1; 2] = Ok 6 /\
          match t_set m v [0] 40 with
          | Ok m' => t_elems m' t = Ok [1; 2; 3; 40; 5; 6] /\ t_at m' u [1] = Ok 101 /\ t_at m' u [2] = UB
          | _ => False
          end
      | _ => False
      end /\ t_sub t 2 = AssertFail /\ t_at m t [2; 0] = AssertFail
  | _ => False
  end /\ t_copy m0 [2; 3] [1; 2; 3; 4; 5] = AssertFail.
Proof. vm_compute. repeat split. Qed.
Example C141_case_valid : exists (m : @memory Z) t u, valid m t /\ owns m t /\ valid m u /\ apart t u /\
  in_shape (t_dims t) [1; 2] /\ t_elems m t = Ok [1; 2; 3; 4; 5; 6] /\ t_elems m u = Ok [8; 9].
Proof.
  exists [[Some 1; Some 2; Some 3; Some 4; Some 5; Some 6]; [Some 7; Some 8; Some 9]],
    {| t_dims := [2; 3]; t_data := Some (0%nat, 0) |}, {| t_dims := [2]; t_data := Some (1%nat, 1) |}.
  assert (F : fits [2; 3]) by (split; [repeat constructor; lia|vm_compute; reflexivity]).
  assert (F2 : fits [2]) by (split; [repeat constructor; lia|vm_compute; reflexivity]).
  split; [split; [exact F|]; eexists 0%nat, 0, _; repeat split; vm_compute; discriminate|].
  split; [split; [exact F|]; eexists 0%nat, _; repeat split|].
  split; [split; [exact F2|]; eexists 1%nat, 1, _; repeat split; vm_compute; discriminate|].
  split; [left; discriminate|].
  split; [repeat constructor; lia|]. split; reflexivity.
Qed.
Example C141_case_fill :
  match t_fill ([] : @memory Z) [2; 2] 9 with
  | Ok (m, t) => t_elems m t = Ok [9; 9; 9; 9] /\ t_elems m (snd (t_move false t)) = UB
                 /\ t_size (snd (t_move false t)) = 4 /\ t_elems m (fst (t_move false t)) = Ok [9; 9; 9; 9]
  | _ => False
  end /\ dims_of_list 3 [5; 4] = UB /\ dims_of_list 2 [5; 4; 3] = Ok [5; 4].
Proof. vm_compute. repeat split. Qed.
(** Outside of the memory of a tensor, and before the first write, nothing can be read. *)
Example C141_case_outside : mread [[Some 1; None]] (0%nat, 0) = Ok 1 /\ mread [[Some 1; None]] (0%nat, 1) = UB /\ mread [[Some 1; None]] (0%nat, 2) = UB /\
  mread [[Some 1; None]] (0%nat, -1) = UB /\ mread [[Some 1; None]] (1%nat, 0) = UB /\
  mwrite [[Some 1; None]] (0%nat, 1) 5 = Ok [[Some 1; Some 5]] /\ mwrite [[Some 1; None]] (0%nat, 2) 5 = UB /\
  mwrite [[Some 1; None]] (0%nat, -1) 5 = UB /\ mwrite [[Some 1; None]] (1%nat, 0) 5 = UB.
Proof. repeat split. Qed.
