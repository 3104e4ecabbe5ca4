(** Further theorems for C49, C52, C54, C59, C65, C72, C82 and C110. *)
From Coq Require Import ZArith QArith Qcanon List Bool Lia.
From Verif Require Import Outcome.
From Verif Require IntTypes ContainerModel GeoModel HullProofs VecModel VecProofs CrossModel PropVec MapModel RangeModel
  PropRange DeviceModel FileModel FileProofs.
Import ListNotations.

(** ** C65: the null id *)
Section Null.
  Import ContainerModel.
  Local Open Scope Z_scope.
  (** The null id is no id of an element, whatever the container: reading it fails the assertion,
      so does erasing it, and a search never returns it. *)
  Theorem C65_null : forall (A : Type) (eqb : A -> A -> bool) (c : list A),
    ~ In id_null (id_range c) /\ id_null <> id_end c /\
    id_at c id_null = AssertFail /\ id_erase c id_null = AssertFail /\
    (forall x, id_find eqb c x <> id_null) /\ (forall x, fst (snd (id_emplace c x)) <> id_null).
  Proof.
    intros. unfold id_null. split.
    { intros H. apply in_map_iff in H as (k & H & _). lia. }
    split; [unfold id_end; lia|]. split; [reflexivity|]. split; [reflexivity|].
    split; intros x; unfold id_find, id_emplace; cbn [fst snd]; lia.
  Qed.
  Example C65_null_case : id_range [5; 6] = [0; 1] /\ id_at [5; 6] id_null = AssertFail
    /\ id_find Z.eqb [5; 6] 7 = 2 /\ id_end [5; 6] = 2.
  Proof. vm_compute. auto. Qed.
End Null.

(** ** C49: a point and a line through two points *)
Section AreaLine.
  Import GeoModel HullProofs.
  Local Open Scope Z_scope.
  (** area is the doubled signed area of the triangle; the turn from the point to the direction of
      the line is clockwise (right) exactly for the points on the left of the line. *)
  Theorem C49_area_line : forall a b p,
    area_pl p (make_line a b) = turn a p b /\
    (area_pl p (make_line a b) = 0 <-> turn a b p = 0) /\
    (orient_pl p (make_line a b) = o_right <-> 0 < turn a b p) /\
    (orient_pl p (make_line a b) = o_collinear <-> turn a b p = 0) /\
    (orient_pl p (make_line a b) = o_left <-> turn a b p < 0).
  Proof.
    intros [ax ay] [bx b_y] [qx qy].
    unfold area_pl, orient_pl, make_line, turn, area, orient, psub, o_left, o_right, o_collinear, area. cbn [px py lbegin lvec].
    split; [ring|].
    set (t := (bx - ax) * (qy - ay) - (b_y - ay) * (qx - ax)).
    replace ((qx - ax) * (b_y - ay) - (qy - ay) * (bx - ax)) with (- t) by (unfold t; ring).
    lia.
  Qed.
  Example C49_area_line_case : area_pl (P 0 1) (make_line (P 1 0) (P 4 2)) = -5
    /\ orient_pl (P 0 1) (make_line (P 1 0) (P 4 2)) = o_right /\ turn (P 1 0) (P 4 2) (P 0 1) = 5.
  Proof. vm_compute. auto. Qed.
End AreaLine.

(** ** C52: rotation about a point *)
Section Rotate.
  Import VecModel.
  Local Open Scope Qc_scope.
  Lemma rotate_about_xy x y a b s c :
    rotate_about [x; y] s c [a; b] = [a + (c * (x - a) + s * (y - b)); b + (s * (x - a) + c * (y - b))].
  Proof. cbv [rotate_about rotate vadd vsub zip dot dot_from]. f_equal; [ring|f_equal; ring]. Qed.
  (** The origin is not moved; finding: the result is the rotated point exactly if the sine is zero
      or the point is level with the origin. *)
  Theorem C52_rotate_about_refuted : forall x y a b s c,
    rotate_about [a; b] s c [a; b] = [a; b] /\
    (rotate_about [x; y] s c [a; b] = [a + (c * (x - a) - s * (y - b)); b + (s * (x - a) + c * (y - b))]
      <-> s * (y - b) = 0).
  Proof.
    intros. rewrite !rotate_about_xy. split; [f_equal; [ring|f_equal; ring]|]. split.
    - intros H. assert (H1 := f_equal (fun v => nth 0 v 0) H). cbn [nth] in H1.
      assert (K : (1 + 1) * (s * (y - b)) = 0).
      { replace ((1 + 1) * (s * (y - b))) with ((a + (c * (x - a) + s * (y - b))) - (a + (c * (x - a) - s * (y - b)))) by ring.
        rewrite H1. ring. }
      destruct (Qcmult_integral _ _ K) as [A|A]; [discriminate|exact A].
    - intros H. f_equal. rewrite H. ring.
  Qed.
  (** A quarter turn of (2, 3) about (1, 1) should be (-1, 2). *)
  Example C52_rotate_about_case : rotate_about [1 + 1; 1 + 1 + 1] 1 0 [1; 1] = [1 + 1 + 1; 1 + 1].
  Proof. rewrite rotate_about_xy. apply f_equal2; [ring|]. apply f_equal2; [ring|reflexivity]. Qed.
End Rotate.

(** ** C82: points and planes *)
Section Plane.
  Import VecModel CrossModel PropVec.
  Local Open Scope Qc_scope.
  (** A plane has no inside: a point is on its border exactly if it lies on the plane, and outside otherwise. *)
  Theorem C82_plane : forall p pl,
    (within_plane p pl = Border <-> on_plane p pl) /\ (within_plane p pl = Outside <-> ~ on_plane p pl).
  Proof.
    intros. rewrite on_plane_value. unfold within_plane, is0.
    destruct (Qc_eq_dec (plane_value pl p) 0) as [E|E]; split; split; intros H; try discriminate; try tauto.
  Qed.
  Example C82_plane_case : let pl := {| normal := [1; 1 + 1]; pd := 1 + 1 + 1 |} in
    within_plane [1; 1] pl = Border /\ within_plane [1; 0] pl = Outside.
  Proof. vm_compute. auto. Qed.
End Plane.

(** ** C54, C59: filtered maps *)
Section FilteredMap.
  Import MapModel.
  (** Traversal of a filtered map gives pairs of the map whose value passes the predicate, all of them,
      in the order of the map, each as often as in the map, and the keys stay distinct. *)
  Theorem C54_filtered_map : forall (K V : Type) (pred : V -> bool) (r : list (K * V)),
    exists l, filtered_map_range pred r = Ok l /\
      (forall k v, In (k, v) l <-> In (k, v) r /\ pred v = true) /\
      (NoDup (map fst r) -> NoDup (map fst l)) /\
      (forall x, In x r -> pred (snd x) = true ->
         forall r1 r2, r = r1 ++ x :: r2 -> exists l1 l2, l = l1 ++ x :: l2 /\
           filtered_map_range pred r1 = Ok l1 /\ filtered_map_range pred r2 = Ok l2).
  Proof.
    intros. exists (filter (test_second pred) r).
    assert (F : forall r : list (K * V), filtered_map_range pred r = Ok (filter (test_second pred) r)).
    { intros. unfold filtered_map_range. now destruct (PropRange.C54_filtered_forward_backward _ (test_second pred) r0). }
    split; [apply F|]. split; [intros k v; rewrite filter_In; reflexivity|]. split.
    - induction r as [|[k v] r IH]; intros N; [constructor|]. cbn [map fst] in N. apply NoDup_cons_iff in N as [N1 N2].
      cbn [filter]. destruct (test_second pred (k, v)); [|auto]. cbn [map fst]. constructor; [|auto].
      intros H. apply N1. apply in_map_iff in H as (q & E & H). apply filter_In in H as [H _].
      apply in_map_iff. eauto.
    - intros x _ P r1 r2 ->. exists (filter (test_second pred) r1), (filter (test_second pred) r2).
      rewrite filter_app. cbn [filter]. unfold test_second at 2. rewrite P. auto.
  Qed.
  Example C54_filtered_map_case :
    filtered_map_range (fun v => 2 <? v)%Z [(1, 5); (2, 0); (3, 3); (4, 2)]%Z = Ok [(1, 5); (3, 3)]%Z.
  Proof. vm_compute. reflexivity. Qed.
End FilteredMap.

(** ** C59: the identity map *)
Section IdentityMap.
  Import IntTypes MapModel.
  Local Open Scope Z_scope.
  (** Keys that fit into the value type are kept; invert undoes get for all keys exactly if the value
      type has at least as many bits as the key type, whatever the signs, and so is get injective. *)
  Theorem C59_identity_map : forall kt vt, 0 < bits kt -> 0 < bits vt ->
    (forall k, in_ity vt (id_get vt k)) /\ (forall k, in_ity vt k -> id_get vt k = k) /\
    (bits kt <= bits vt <-> forall k, in_ity kt k -> id_invert kt (id_get vt k) = k) /\
    (bits kt <= bits vt <-> forall k1 k2, in_ity kt k1 -> in_ity kt k2 -> id_get vt k1 = id_get vt k2 -> k1 = k2).
  Proof.
    intros kt vt Hk Hv. unfold id_get, id_invert. split; [intros; now apply wrap_in|].
    split; [intros; now apply wrap_id|].
    assert (A : bits kt <= bits vt -> forall k, in_ity kt k -> wrap kt (wrap vt k) = k).
    { intros L k Ik. rewrite <- (wrap_id kt k Hk Ik) at 2. apply wrap_congr; [assumption|].
      assert (E := wrap_mod vt k Hv).
      apply (f_equal (fun z => z mod 2 ^ bits kt)) in E.
      assert (D : 2 ^ bits vt = 2 ^ bits kt * 2 ^ (bits vt - bits kt)).
      { rewrite <- Z.pow_add_r by lia. f_equal. lia. }
      rewrite <- !Znumtheory.Zmod_div_mod in E; auto; try (apply Z.pow_pos_nonneg; lia).
      all: exists (2 ^ (bits vt - bits kt)); rewrite D; ring. }
    assert (B : (forall k, in_ity kt k -> wrap kt (wrap vt k) = k) ->
      forall k1 k2, in_ity kt k1 -> in_ity kt k2 -> wrap vt k1 = wrap vt k2 -> k1 = k2).
    { intros F k1 k2 I1 I2 E. rewrite <- (F k1 I1), <- (F k2 I2). now rewrite E. }
    assert (C : (forall k1 k2, in_ity kt k1 -> in_ity kt k2 -> wrap vt k1 = wrap vt k2 -> k1 = k2) -> bits kt <= bits vt).
    { intros F. destruct (Z_le_gt_dec (bits kt) (bits vt)) as [?|G]; [assumption|exfalso].
      assert (S : 2 ^ bits vt < 2 ^ bits kt) by (apply Z.pow_lt_mono_r; lia).
      assert (0 < 2 ^ bits vt) by (apply Z.pow_pos_nonneg; lia).
      specialize (F (ilow kt) (ilow kt + 2 ^ bits vt)).
      assert (ilow kt = ilow kt + 2 ^ bits vt); [|lia]. apply F.
      - unfold in_ity. rewrite ity_span by assumption. lia.
      - unfold in_ity. rewrite ity_span by assumption. lia.
      - apply wrap_congr; [assumption|]. rewrite <- (Z.mul_1_l (2 ^ bits vt)) at 2. now rewrite Z_mod_plus_full. }
    split; split; auto.
  Qed.
  Example C59_identity_map_case : id_get uint8 (-1) = 255 /\ id_invert int8 255 = -1
    /\ id_get uint8 300 = 44 /\ id_invert int32 44 = 44.
  Proof. vm_compute. auto. Qed.
End IdentityMap.

(** ** C72: repeated characters on a device without a buffer *)
Section Repeat.
  Import DeviceModel.
  Local Open Scope Z_scope.
  Theorem C72_simple : forall d c k,
    s_str (repeat_simple d c k) = s_str d ++ repeat c k /\ s_pos (repeat_simple d c k) = s_pos d.
  Proof.
    intros d c k. revert d. induction k as [|k IH]; intros d; cbn [repeat_simple repeat].
    - now rewrite app_nil_r.
    - destruct (IH (fst (s_write_char d c))) as [-> ->]. cbn [s_write_char fst s_str s_pos].
      now rewrite <- app_assoc.
  Qed.
  Example C72_simple_case :
    repeat_simple {| s_str := [1; 2]; s_pos := 1 |} 7 3 = {| s_str := [1; 2; 7; 7; 7]; s_pos := 1 |}.
  Proof. reflexivity. Qed.
End Repeat.

(** ** C110: binary files *)
Section Binary.
  Import FileModel FileProofs.
  Local Open Scope Z_scope.
  (** A file is opened as a binary one exactly if the flag bin is given. *)
  Theorem C110_bin : forall m, valid_mode m ->
    exists o, nth_error mode_str (Z.to_nat (mode_index m)) = Some o /\ o_bin o = Z.odd m /\ is_bin m = Z.odd m.
  Proof.
    intros m (V & W). assert (O : Z.odd m = Z.odd (Z.land m 15)).
    { rewrite <- !Z.bit0_odd, Z.land_spec. now destruct (Z.testbit m 0). }
    rewrite O. unfold is_in, is_out, is_bin in *.
    rewrite (land_low m m_in), (land_low m (Z.lor m_out m_app)) in W by (split; vm_compute; discriminate).
    rewrite (land_low m m_bin) by (split; vm_compute; discriminate).
    unfold mode_index. destruct (low_cases m ltac:(lia)) as (k & Ek & C). rewrite Ek in *. clear Ek.
    repeat destruct C as [->|C]; try subst k; cbn in W; try (destruct W; discriminate); cbn; eexists; repeat split; reflexivity.
  Qed.
  Example C110_bin_case : valid_mode 5 /\ is_bin 5 = true /\
    nth_error mode_str (Z.to_nat (mode_index 5)) = Some {| o_base := BaseW; o_plus := false; o_bin := true |}.
  Proof. vm_compute. repeat split; auto; discriminate. Qed.
End Binary.

Print Assumptions C65_null.
Print Assumptions C49_area_line.
Print Assumptions C52_rotate_about_refuted.
Print Assumptions C82_plane.
Print Assumptions C54_filtered_map.
Print Assumptions C59_identity_map.
Print Assumptions C72_simple.
Print Assumptions C110_bin.
