(** Properties C82 and C83: inlier tests, random variations, random draws. *)
From Coq Require Import Bool ZArith Reals Lra Lia ZifyBool.
From Flocq Require Import Core Relative.
From Verif Require Import OptFeatureModel OptFeatureSpec GeometryProps InverseDepthProps.
From Verif Require Import Vec3.
Local Open Scope bool_scope.
Local Open Scope R_scope.

Lemma rle_iff a b : rle a b = true <-> a <= b.
Proof. unfold rle. destruct (Rle_dec a b); split; auto; discriminate. Qed.

(** ** C82 *)

(** For every camera, pose and 3D point: the match is an inlier if and only if the point is
    seen at less than 3 pixels of the matched keypoint. *)
Theorem C82_point_inlier : forall fx fy cx cy w2c f,
  point_inlier (intrinsics fx fy cx cy) w2c f = true <->
  seen_near fx fy cx cy w2c (pf_point f) (pf_x f) (pf_y f) 3.
Proof.
  intros fx fy cx cy w2c f. unfold point_inlier, pixel_distance, pixel_residual, seen_near.
  set (p := point_to_camera w2c (pf_point f)). destruct (Req_dec (vz p) 0) as [Z|Z].
  - unfold camera_to_screen. destruct (Req_EM_T (vz p) 0); [|contradiction].
    split; [discriminate|]. intros (u & v & N & _). contradiction.
  - rewrite to_screen_value by exact Z. cbn [vx vy]. rewrite rle_iff. unfold point_threshold, seen_at. split.
    + intros H. exists (fx * vx p / vz p + cx), (fy * vy p / vz p + cy). auto.
    + intros (u & v & _ & [-> ->] & H). exact H.
Qed.
Print Assumptions C82_point_inlier.

Lemma component_bound n : is_unit n -> Rabs (vx n) <= 1 /\ Rabs (vy n) <= 1 /\ Rabs (vz n) <= 1.
Proof. unfold is_unit, dot. intros U. repeat split; apply Rabs_le; nra. Qed.
Lemma small_angle a b : Rabs a <= 1 -> Rabs b <= 1 -> angle_distance a b = a - b.
Proof.
  intros A B. apply C71_small_difference.
  assert (2 < PI) by (pose proof PI2_1; unfold PI2 in *; lra).
  apply Rabs_le_inv in A, B. apply Rabs_def1; lra.
Qed.

(** For every pose and plane: the match is an inlier if and only if the detected plane and the
    projection of the map plane are close: 0.2 for each part of the normal, 50 mm for the
    distance. *)
Theorem C82_plane_inlier : forall q t w2c w2c_plane f,
  unit_quat q -> world_to_camera (camera_to_world q t) w2c -> plane_world_to_camera w2c w2c_plane ->
  is_unit (pl_normal (lf_plane f)) -> is_unit (pl_normal (lf_matched f)) ->
  plane_inlier w2c_plane f = true <->
  close_planes (lf_matched f) (transform_plane w2c_plane (lf_plane f)) (13421773 / 67108864) 50.
Proof.
  intros q t w2c w2c_plane f U W P N M. unfold plane_inlier, plane_signed_distance, close_planes. cbn [hd4 tl4 vx vy vz].
  assert (T : is_unit (pl_normal (transform_plane w2c_plane (lf_plane f)))) by (eapply (C47_distances q t w2c w2c_plane (lf_plane f) v0); eauto).
  apply component_bound in M, T. destruct M as (M1 & M2 & M3), T as (T1 & T2 & T3).
  rewrite !small_angle by assumption. rewrite !andb_true_iff, !rle_iff. unfold plane_normal_threshold, plane_distance_threshold. tauto.
Qed.
(** The normals of an inlier are then at less than 20.1 degrees: their cosine is over 0.939. *)
Theorem C82_plane_inlier_angle : forall a b,
  is_unit (pl_normal a) -> is_unit (pl_normal b) -> close_planes a b (13421773 / 67108864) 50 -> 939 / 1000 <= cos_angle a b.
Proof.
  intros a b A B (X & Y & Z & _). unfold cos_angle.
  assert (S : forall x, Rabs x <= 13421773 / 67108864 -> x * x <= 402 / 10000).
  { intros x H. apply Rabs_le_inv in H. nra. }
  apply S in X, Y, Z. unfold is_unit, dot in *. nra.
Qed.
Print Assumptions C82_plane_inlier.
Print Assumptions C82_plane_inlier_angle.

Lemma norm_component v : Rabs (vx v) <= norm v /\ Rabs (vy v) <= norm v.
Proof.
  unfold norm, sqn, dot. split.
  - rewrite <- sqrt_Rsqr_abs. apply sqrt_le_1_alt. unfold Rsqr. nra.
  - rewrite <- sqrt_Rsqr_abs. apply sqrt_le_1_alt. unfold Rsqr. nra.
Qed.
(** A keypoint at less than 3 pixels of the line where a 2D point can be is an inlier. *)
Theorem C82_point2d_close : forall k w2c f a b x,
  screen_segment k w2c (tf_point f) (vx (tf_deviation f)) = Some (a, b) ->
  on_line a (vsub b a) x -> dist (mkV (tf_x f) (tf_y f) 0) x <= 3 ->
  point2d_inlier k w2c f = true.
Proof.
  intros k w2c f a b x E L D. unfold point2d_inlier, point2d_distance. rewrite E.
  set (o := mkV (tf_x f) (tf_y f) 0) in *.
  assert (H : norm (segment_distance a b o) <= 3).
  { eapply Rle_trans; [|exact D]. unfold segment_distance, closest_on_segment.
    destruct (vec_eq_dec a b) as [->|N].
    - destruct L as [s ->].
      assert (Z : vsub b b = v0) by (destruct b; v3unfold; f_equal; ring).
      unfold segment_normal. rewrite Z.
      assert (V : vnormalized v0 = v0).
      { unfold vnormalized. destruct (Rlt_dec 0 (sqn v0)) as [X|X]; [exfalso; v3unfold; lra|reflexivity]. }
      rewrite V. unfold dist. right. f_equal. destruct b, o. v3unfold. f_equal; ring.
    - destruct (segment_normal_unit a b N) as [U S]. apply foot_minimal; [exact U|].
      destruct L as [s ->]. rewrite S. exists (s * norm (vsub b a)).
      set (n := segment_normal a b). set (m := norm (vsub b a)). clearbody n m. destruct a, n. v3unfold. f_equal; ring. }
  destruct (norm_component (segment_distance a b o)) as [X Y].
  unfold point2d_threshold. apply andb_true_iff. rewrite !rle_iff. split.
  - eapply Rle_trans; [apply Rle_abs|]. lra.
  - eapply Rle_trans; [apply Rle_abs|]. lra.
Qed.
Print Assumptions C82_point2d_close.

(** The converse is false: the difference is not made positive, so a keypoint 400 pixels away
    from the point, up and left of it, is an inlier. *)
Theorem C82_point2d_inlier_refuted : exists w2c f a b,
  world_to_camera (camera_to_world (mkQuat 1 0 0 0) v0) w2c /\ valid_idp (tf_point f) /\
  screen_segment (intrinsics 500 500 320 240) w2c (tf_point f) (vx (tf_deviation f)) = Some (a, b) /\
  (forall x, on_line a (vsub b a) x -> 400 <= dist (mkV (tf_x f) (tf_y f) 0) x) /\
  point2d_inlier (intrinsics 500 500 320 240) w2c f = true.
Proof.
  assert (U : unit_quat (mkQuat 1 0 0 0)) by (unfold unit_quat; cbn; lra).
  destruct (C46_inverse_exists _ v0 U) as (w2c & W & _). exists w2c.
  pose proof PI_RGT_0 as PP.
  set (p := mkIdp v0 (1 / 1000) (PI / 2) 0).
  exists (mkPoint2F 0 0 p v0 0 0). cbn [tf_point tf_deviation tf_x tf_y]. exists (mkV 320 240 0), (mkV 320 240 0).
  assert (T : 0 < 10 ^ 9) by (apply pow_lt; lra).
  assert (EST : forall s, s = 0 -> estimation p (Rmin (1 / 1000 + s * 3) (1 / 10 ^ 9)) = Some (mkV (10 ^ 9) 0 0)).
  { intros s ->. rewrite Rmin_right.
    - unfold estimation. assert (0 < 1 / 10 ^ 9) by (apply Rdiv_lt_0_compat; lra). destruct (Req_EM_T _ 0); [lra|].
      unfold bearing, cartesian_from, p. cbn [theta phi first vx vy vz]. rewrite sin_PI2, cos_PI2, sin_0, cos_0.
      f_equal. unfold vadd, vscal, v0. cbn [vx vy vz]. f_equal; field; lra.
    - replace (1 / 1000 + 0 * 3) with (1 / 1000) by lra. unfold Rdiv. apply Rmult_le_compat_l; [lra|].
      apply Rinv_le_contravar; lra. }
  assert (SEG : screen_segment (intrinsics 500 500 320 240) w2c p (vx v0) = Some (mkV 320 240 0, mkV 320 240 0)).
  { unfold screen_segment, furthest_estimation, closest_estimation. cbn [vx v0 inverse_depth p]. rewrite sqrt_0.
    replace (1 / 1000 - 0 * 3) with (1 / 1000 + 0 * 3) by lra. rewrite EST by reflexivity.
    assert (C : point_to_camera w2c (mkV (10 ^ 9) 0 0) = mkV 0 0 (10 ^ 9)).
    { destruct (C46_inverse _ v0 w2c (mkV 0 0 (10 ^ 9)) U W) as [I _].
      destruct (C46_camera_center (mkQuat 1 0 0 0) v0) as [_ CC]. rewrite CC in I.
      replace (vadd (mkV (10 ^ 9) 0 0) (world_axes v0)) with (mkV (10 ^ 9) 0 0) in I; [exact I|].
      unfold vadd, world_axes, v0. cbn [vx vy vz]. f_equal; ring. }
    rewrite C. rewrite to_screen_value by (cbn [vz]; lra). cbn [vx vy vz].
    assert (E1 : 500 * 0 / 10 ^ 9 + 320 = 320) by (field; lra). assert (E2 : 500 * 0 / 10 ^ 9 + 240 = 240) by (field; lra).
    rewrite E1, E2. reflexivity. }
  split; [exact W|]. split; [|split; [exact SEG|split]].
  - unfold valid_idp, p. cbn [inverse_depth theta phi]. lra.
  - intros x [s ->]. unfold dist, norm. rewrite <- (sqrt_Rsqr 400) by lra. apply sqrt_le_1_alt. unfold Rsqr. v3unfold. nra.
  - unfold point2d_inlier, point2d_distance. cbn [tf_point tf_deviation tf_x tf_y]. rewrite SEG.
    unfold segment_distance, closest_on_segment, segment_normal.
    assert (Z : vsub (mkV 320 240 0) (mkV 320 240 0) = v0) by (unfold vsub, v0; cbn; f_equal; ring). rewrite Z.
    assert (V : vnormalized v0 = v0).
    { unfold vnormalized. destruct (Rlt_dec 0 (sqn v0)) as [X|X]; [exfalso; v3unfold; lra|reflexivity]. }
    rewrite V. unfold vsub, vadd, vscal, v0, point2d_threshold. cbn [vx vy vz].
    apply andb_true_iff. rewrite !rle_iff. split; lra.
Qed.
Print Assumptions C82_point2d_inlier_refuted.

(** ** Random variations *)

(** The variation of a point moves each coordinate by the draw times its deviation and changes
    nothing else. *)
Theorem C82_point_variation : forall draws f,
  let g := point_variation draws f in
  vx (pf_point g) - vx (pf_point f) = vx draws * vx (pf_deviation f) /\
  vy (pf_point g) - vy (pf_point f) = vy draws * vy (pf_deviation f) /\
  vz (pf_point g) - vz (pf_point f) = vz draws * vz (pf_deviation f) /\
  pf_x g = pf_x f /\ pf_y g = pf_y f /\ pf_deviation g = pf_deviation f /\ pf_id g = pf_id f /\ pf_detected g = pf_detected f /\
  (pf_deviation f = v0 -> g = f).
Proof.
  intros draws [x y p s i d]. unfold point_variation, cwise, vadd. cbn. repeat split; try ring.
  intros ->. destruct p. unfold v0. cbn. f_equal. f_equal; ring.
Qed.
Print Assumptions C82_point_variation.

(** The variation of a plane is a plane: its normal is a unit vector, in the direction of the
    moved normal, unless this one vanishes; its distance moves by the draw times the deviation. *)
Theorem C82_plane_variation : forall draws draw f,
  let g := plane_variation draws draw f in
  let moved := vadd (pl_normal (lf_plane f)) (cwise draws (hd4 (lf_deviation f))) in
  (moved <> v0 -> is_unit (pl_normal (lf_plane g)) /\ exists k, 0 < k /\ pl_normal (lf_plane g) = vscal k moved) /\
  pl_d (lf_plane g) - pl_d (lf_plane f) = draw * tl4 (lf_deviation f) /\
  lf_matched g = lf_matched f /\ lf_deviation g = lf_deviation f /\ lf_id g = lf_id f /\ lf_detected g = lf_detected f /\
  (is_unit (pl_normal (lf_plane f)) -> lf_deviation f = mkV4 v0 0 -> g = f).
Proof.
  intros draws draw f g moved. split; [|split; [|split; [|split; [|split; [|split]]]]]; try reflexivity.
  - intros N. assert (Q : 0 < sqn moved).
    { destruct (Rle_lt_or_eq_dec 0 (sqn moved)) as [L|E]; [|exact L|].
      - unfold sqn, dot. nra.
      - exfalso. apply N. unfold sqn, dot in E. destruct moved as [a b c]. cbn in E. unfold v0.
        assert (a = 0 /\ b = 0 /\ c = 0) as (-> & -> & ->) by (repeat split; nra). reflexivity. }
    split.
    + apply normalized_is_unit. exact N.
    + exists (/ norm moved). assert (0 < norm moved) by (apply sqrt_lt_R0; exact Q). split; [now apply Rinv_0_lt_compat|].
      unfold g, plane_variation. cbn [lf_plane pl_normal]. fold moved. unfold vnormalized.
      destruct (Rlt_dec 0 (sqn moved)); [|contradiction]. destruct moved. v3unfold. f_equal; field; lra.
  - unfold g, plane_variation. cbn. ring.
  - intros U E. unfold g, plane_variation. destruct f as [m [n d] s i j]. cbn [lf_matched lf_plane lf_deviation lf_id lf_detected pl_normal pl_d] in *.
    subst s. cbn [hd4 tl4]. f_equal.
    assert (A : vadd n (cwise draws v0) = n) by (destruct n; unfold vadd, cwise, v0; cbn; f_equal; ring).
    rewrite A. f_equal; [|ring]. now apply normalized_unit.
Qed.
Print Assumptions C82_plane_variation.
(** When the moved normal vanishes the plane has no normal any more. *)
Theorem C82_plane_variation_refuted : exists draws draw f,
  is_unit (pl_normal (lf_plane f)) /\ 0 <= vz (hd4 (lf_deviation f)) /\
  pl_normal (lf_plane (plane_variation draws draw f)) = v0.
Proof.
  exists (mkV 0 0 (-2)), 0, (mkPlaneF (mkPlane (mkV 0 0 1) 0) (mkPlane (mkV 0 0 1) 0) (mkV4 (mkV 0 0 (1 / 2)) 0) 0 0).
  cbn. split; [unfold is_unit, dot; cbn; ring|]. split; [lra|].
  assert (A : vadd (mkV 0 0 1) (cwise (mkV 0 0 (-2)) (mkV 0 0 (1 / 2))) = v0) by (unfold vadd, cwise, v0; cbn; f_equal; field).
  rewrite A. unfold vnormalized. destruct (Rlt_dec 0 (sqn v0)) as [X|X]; [exfalso; v3unfold; lra|reflexivity].
Qed.
Print Assumptions C82_plane_variation_refuted.

Lemma clamp_bounds x lo hi : lo <= hi -> lo <= clamp x lo hi <= hi.
Proof. intros H. unfold clamp. destruct (Rlt_dec x lo); [lra|]. destruct (Rlt_dec hi x); lra. Qed.
Lemma clamp_moves c d lo hi : lo <= c <= hi -> Rabs (clamp (c + d) lo hi - c) <= Rabs d.
Proof.
  intros H. unfold clamp. destruct (Rlt_dec (c + d) lo); [|destruct (Rlt_dec hi (c + d))].
  - rewrite (Rabs_left1 d) by lra. apply Rabs_le. lra.
  - rewrite (Rabs_right d) by lra. apply Rabs_le. lra.
  - right. f_equal. ring.
Qed.
(** The variation of a 2D point never fails: its angles stay in their intervals and move at
    most by the draw times the deviation; the first observation and the depth do not change. *)
Theorem C82_point2d_variation : forall draw_theta draw_phi f, valid_idp (tf_point f) ->
  exists g, point2d_variation draw_theta draw_phi f = Some g /\ valid_idp (tf_point g) /\
    first (tf_point g) = first (tf_point f) /\ inverse_depth (tf_point g) = inverse_depth (tf_point f) /\
    Rabs (theta (tf_point g) - theta (tf_point f)) <= Rabs (draw_theta * vy (tf_deviation f)) /\
    Rabs (phi (tf_point g) - phi (tf_point f)) <= Rabs (draw_phi * vz (tf_deviation f)) /\
    tf_x g = tf_x f /\ tf_y g = tf_y f /\ tf_deviation g = tf_deviation f /\ tf_id g = tf_id f /\ tf_detected g = tf_detected f.
Proof.
  intros draw_theta draw_phi f (D & T & P). unfold point2d_variation. pose proof PI_RGT_0 as PP.
  set (t := clamp _ 0 PI). set (h := clamp _ (- PI) PI).
  assert (Bt : 0 <= t <= PI) by (apply clamp_bounds; lra). assert (Bh : - PI <= h <= PI) by (apply clamp_bounds; lra).
  assert (E : make_idp (first (tf_point f)) (inverse_depth (tf_point f)) t h = Built (mkIdp (first (tf_point f)) (inverse_depth (tf_point f)) t h)).
  { unfold make_idp. repeat match goal with |- context [Rlt_dec ?a ?b] => destruct (Rlt_dec a b); [lra|] end. reflexivity. }
  rewrite E. eexists. split; [reflexivity|]. cbn [tf_point tf_x tf_y tf_deviation tf_id tf_detected theta phi first inverse_depth].
  split; [unfold valid_idp; cbn; auto|]. repeat split; try reflexivity; now apply clamp_moves.
Qed.
Print Assumptions C82_point2d_variation.

(** A keypoint at two pixels of a point in front of the camera is an inlier, one at four is not;
    a plane measured where the map plane projects is an inlier. *)
Example C82_example :
  point_inlier (intrinsics 500 500 320 240) id4 (mkPointF 321 241 (mkV 0 0 1000) (mkV 1 1 1) 0 0) = true /\
  point_inlier (intrinsics 500 500 320 240) id4 (mkPointF 322 242 (mkV 0 0 1000) (mkV 1 1 1) 0 0) = false /\
  exists w2c w2c_plane world, world_to_camera (camera_to_world (mkQuat 1 0 0 0) (mkV 1 2 3)) w2c /\ plane_world_to_camera w2c w2c_plane /\
    is_unit (pl_normal world) /\ plane_inlier w2c_plane (mkPlaneF (mkPlane (mkV 0 0 (-1)) 1000) world (mkV4 v0 1) 0 0) = true.
Proof.
  assert (P : point_to_camera id4 (mkV 0 0 1000) = mkV 0 0 1000).
  { unfold point_to_camera, mulv4, id4, homogeneous, mvmul, mid, dot, vadd, vscal, v0. cbn. f_equal; field. }
  split; [|split].
  - apply C82_point_inlier. exists 320, 240. cbn [pf_point pf_x pf_y]. rewrite P. unfold seen_at. cbn [vx vy vz].
    split; [lra|]. split; [split; field|]. replace (321 - 320) with 1 by lra. replace (241 - 240) with 1 by lra. rewrite Rabs_R1. lra.
  - apply not_true_is_false. rewrite C82_point_inlier. intros (u & v & _ & [U V] & H). cbn [pf_point pf_x pf_y] in *. rewrite P in *.
    cbn [vx vy vz] in *. assert (u = 320) by (rewrite U; field). assert (v = 240) by (rewrite V; field). subst u v. rewrite H0, H1 in H.
    replace (322 - 320) with 2 in H by lra. replace (242 - 240) with 2 in H by lra. rewrite Rabs_pos_eq in H by lra. lra.
  - assert (U : unit_quat (mkQuat 1 0 0 0)) by (unfold unit_quat; cbn; lra).
    destruct (C46_inverse_exists _ (mkV 1 2 3) U) as (w2c & W & _). destruct (C47_inverse_exists _ _ w2c U W) as (wp & Q & _).
    set (c := mkPlane (mkV 0 0 (-1)) 1000). assert (C : is_unit (pl_normal c)) by (unfold is_unit, dot, c; cbn; ring).
    exists w2c, wp, (transform_plane (plane_camera_to_world (camera_to_world (mkQuat 1 0 0 0) (mkV 1 2 3))) c).
    split; [exact W|]. split; [exact Q|].
    assert (N : is_unit (pl_normal (transform_plane (plane_camera_to_world (camera_to_world (mkQuat 1 0 0 0) (mkV 1 2 3))) c)))
      by (eapply (C47_distances _ _ w2c wp c v0); eauto).
    split; [exact N|]. eapply C82_plane_inlier; eauto. cbn [lf_matched lf_plane].
    destruct (C47_round_trip _ _ w2c wp c U C W Q) as [R _]. rewrite R. unfold close_planes.
    unfold Rminus. rewrite !Rplus_opp_r, Rabs_R0. lra.
Qed.

(** ** C83 *)

Local Notation fexp := (FLT_exp (-1074) 53).
Local Instance valid_fexp : Valid_exp fexp.
Proof. apply FLT_exp_valid. reflexivity. Qed.
Lemma format_F2R m e : (Z.abs m < 2 ^ 53)%Z -> (-1074 <= e)%Z -> generic_format radix2 fexp (IZR m * bpow radix2 e).
Proof. intros H E. apply generic_format_FLT. exists (Float radix2 m e); [reflexivity|exact H|exact E]. Qed.
Lemma format_IZR z : (Z.abs z < 2 ^ 53)%Z -> generic_format radix2 fexp (IZR z).
Proof. intros H. rewrite <- (Rmult_1_r (IZR z)). apply (format_F2R z 0 H). lia. Qed.
Lemma rounded_format x : generic_format radix2 fexp x -> rounded x = x.
Proof. intros H. apply round_generic; [typeclasses eauto|exact H]. Qed.
Lemma rounded_le x y : x <= y -> rounded x <= rounded y.
Proof. intros H. apply round_le; [typeclasses eauto|typeclasses eauto|exact H]. Qed.
Lemma is_draw_format d : is_draw d -> generic_format radix2 fexp d.
Proof. intros [E _]. rewrite E. apply generic_format_round; typeclasses eauto. Qed.
Lemma below_one d : generic_format radix2 fexp d -> d < 1 -> d <= 1 - bpow radix2 (-53).
Proof.
  intros F L. assert (P : pred radix2 fexp (bpow radix2 0) = 1 - bpow radix2 (-53)) by (rewrite pred_bpow; reflexivity).
  rewrite <- P. apply pred_ge_gt; [typeclasses eauto|exact F| |exact L].
  change (bpow radix2 0) with (IZR 1). apply format_IZR. lia.
Qed.

(** the product of a draw by an integer rounds under this integer *)
Lemma rounded_product_lt d n : is_draw d -> (0 < n <= 2 ^ 32)%Z -> rounded (d * IZR n) < IZR n.
Proof.
  intros D N. pose proof (is_draw_format d D) as Fd. destruct D as [_ [D0 D1]].
  pose proof (below_one d Fd D1) as B.
  assert (Np : 1 <= IZR n) by (apply IZR_le; lia).
  assert (Fn : generic_format radix2 fexp (IZR n)) by (apply format_IZR; lia).
  set (e := mag radix2 (IZR n) : Z).
  assert (M : bpow radix2 (e - 1) <= IZR n < bpow radix2 e).
  { unfold e. generalize (mag radix2 (IZR n)). intros [m Hm]. cbn [mag_val]. specialize (Hm ltac:(lra)). rewrite Rabs_pos_eq in Hm by lra. exact Hm. }
  assert (E1 : (1 <= e)%Z).
  { assert ((0 < e)%Z); [|lia]. apply (lt_bpow radix2). change (bpow radix2 0) with 1. lra. }
  assert (Half : IZR n - pred radix2 fexp (IZR n) < bpow radix2 (-52) * IZR n).
  { rewrite pred_eq_pos by lra. unfold pred_pos. fold e.
    assert (X : bpow radix2 (e - 53) = bpow radix2 (-52) * bpow radix2 (e - 1)) by (rewrite <- bpow_plus; f_equal; lia).
    pose proof (bpow_gt_0 radix2 (-52)) as P52.
    destruct (Req_bool_spec (IZR n) (bpow radix2 (e - 1))) as [Eq|Ne].
    - unfold FLT_exp. rewrite Z.max_l by lia.
      replace (IZR n - (IZR n - bpow radix2 (e - 1 - 53))) with (bpow radix2 (e - 1 - 53)) by ring.
      eapply Rlt_le_trans; [apply bpow_lt with (e2 := (e - 53)%Z); lia|]. rewrite X. apply Rmult_le_compat_l; lra.
    - assert (U : ulp radix2 fexp (IZR n) = bpow radix2 (e - 53)).
      { rewrite ulp_neq_0 by lra. unfold cexp. fold e. f_equal. unfold FLT_exp. lia. }
      rewrite U. replace (IZR n - (IZR n - bpow radix2 (e - 53))) with (bpow radix2 (e - 53)) by ring.
      rewrite X. apply Rmult_lt_compat_l; lra. }
  assert (S : succ radix2 fexp (pred radix2 fexp (IZR n)) = IZR n) by (apply succ_pred; [typeclasses eauto|exact Fn]).
  eapply Rle_lt_trans; [|apply (pred_lt_id radix2 fexp (IZR n)); lra].
  apply round_N_le_midp; [typeclasses eauto|apply generic_format_pred; [typeclasses eauto|exact Fn]|].
  rewrite S.
  assert (Y : bpow radix2 (-52) = 2 * bpow radix2 (-53)) by (change (-52)%Z with (1 + -53)%Z; rewrite bpow_plus; reflexivity).
  rewrite Y in Half. assert (d * IZR n <= (1 - bpow radix2 (-53)) * IZR n) by (apply Rmult_le_compat_r; lra).
  pose proof (bpow_gt_0 radix2 (-53)). nra.
Qed.

(** For every draw in [0, 1[, rounding included: the integer drawn is in the interval, its
    upper bound is never drawn. *)
Theorem C83_in_range : forall draw low high,
  is_draw draw -> (0 <= low < high)%Z -> (high <= 2 ^ 32)%Z ->
  (low <= random_uint draw low high < high)%Z.
Proof.
  intros draw low high D L H. unfold random_uint.
  assert (N : (0 < high - low <= 2 ^ 32)%Z) by lia.
  pose proof (rounded_product_lt draw (high - low) D N) as U.
  assert (Z0 : 0 <= rounded (draw * IZR (high - low))).
  { replace 0 with (rounded 0); [|apply round_0; typeclasses eauto]. apply rounded_le. destruct D as [_ [D _]].
    apply Rmult_le_pos; [exact D|]. apply IZR_le. lia. }
  assert (A : (0 <= Zfloor (rounded (draw * IZR (high - low))))%Z) by (apply Zfloor_lub; exact Z0).
  assert (B : (Zfloor (rounded (draw * IZR (high - low))) < high - low)%Z).
  { apply lt_IZR. eapply Rle_lt_trans; [apply Zfloor_lb|exact U]. }
  lia.
Qed.
Print Assumptions C83_in_range.

(** Every integer of the interval is drawn by some draw. *)
Theorem C83_all_reached : forall low high v,
  (0 <= low)%Z -> (high <= 2 ^ 32)%Z -> (low <= v < high)%Z ->
  exists draw, is_draw draw /\ random_uint draw low high = v.
Proof.
  intros low high v L H V. set (n := (high - low)%Z). set (k := (v - low)%Z).
  assert (N : (0 < n <= 2 ^ 32)%Z) by lia. assert (K : (0 <= k < n)%Z) by lia.
  assert (Np : 1 <= IZR n <= IZR (2 ^ 32)) by (split; apply IZR_le; lia).
  assert (K0 : 0 <= IZR k) by (apply IZR_le; lia). assert (K1 : IZR k <= IZR n - 1) by (rewrite <- minus_IZR; apply IZR_le; lia).
  set (x := (IZR k + / 2) / IZR n).
  assert (X0 : 0 <= x) by (apply Rmult_le_pos; [lra|]; left; apply Rinv_0_lt_compat; lra).
  assert (X1 : x * IZR n = IZR k + / 2) by (unfold x; field; lra).
  assert (P53 : bpow radix2 (-53) * IZR (2 ^ 32) = / IZR (2 ^ 21)).
  { change (IZR (2 ^ 32)) with (bpow radix2 32). rewrite <- bpow_plus. change (-53 + 32)%Z with (-21)%Z. reflexivity. }
  assert (P21 : / IZR (2 ^ 21) < / 4) by (apply Rinv_lt_contravar; [|apply IZR_lt; lia]; apply Rmult_lt_0_compat; [lra|apply IZR_lt; lia]).
  pose proof (bpow_gt_0 radix2 (-53)) as B0.
  assert (B1 : bpow radix2 (-53) * IZR n < / 4) by nra.
  assert (Xlt : x <= 1 - bpow radix2 (-53)).
  { apply (Rmult_le_reg_r (IZR n)); [lra|]. rewrite X1. nra. }
  assert (F1 : generic_format radix2 fexp (1 - bpow radix2 (-53))).
  { replace (1 - bpow radix2 (-53)) with (IZR (2 ^ 53 - 1) * bpow radix2 (-53)).
    - apply format_F2R; lia.
    - rewrite minus_IZR, Rmult_minus_distr_r. change (IZR (2 ^ 53)) with (bpow radix2 53). rewrite <- bpow_plus.
      change (bpow radix2 (53 + -53)) with 1. ring. }
  assert (F0 : generic_format radix2 fexp 0) by apply generic_format_0.
  set (d := rounded x).
  assert (D0 : 0 <= d) by (rewrite <- (rounded_format 0 F0); now apply rounded_le).
  assert (D1 : d <= 1 - bpow radix2 (-53)) by (rewrite <- (rounded_format _ F1); now apply rounded_le).
  assert (Err : Rabs (d - x) <= bpow radix2 (-53)).
  { unfold d, rounded. eapply Rle_trans; [apply error_le_half_ulp; typeclasses eauto|].
    assert (U : ulp radix2 fexp x <= bpow radix2 (-52)).
    { eapply Rle_trans; [apply (ulp_le radix2 fexp x 1); [rewrite (Rabs_pos_eq x), Rabs_R1 by lra; lra]|].
      change 1 with (bpow radix2 0) at 1. rewrite ulp_bpow. reflexivity || (unfold FLT_exp; cbn; lra). }
    assert (Y : bpow radix2 (-52) = 2 * bpow radix2 (-53)) by (change (-52)%Z with (1 + -53)%Z; rewrite bpow_plus; reflexivity).
    rewrite Y in U. lra. }
  exists d. split.
  - split; [|lra]. symmetry. apply rounded_format. apply generic_format_round; typeclasses eauto.
  - unfold random_uint. fold n. apply Rabs_le_inv in Err.
    assert (V1 : IZR k <= d * IZR n <= IZR k + 3 / 4) by nra.
    assert (R : rounded (d * IZR n) <= IZR k + 3 / 4).
    { assert (F : generic_format radix2 fexp (IZR k + 3 / 4)).
      { replace (IZR k + 3 / 4) with (IZR (4 * k + 3) * bpow radix2 (-2)).
        - apply format_F2R; lia.
        - rewrite plus_IZR, mult_IZR. change (bpow radix2 (-2)) with (/ 4). field. }
      rewrite <- (rounded_format _ F). apply rounded_le. lra. }
    assert (R' : IZR k <= rounded (d * IZR n)).
    { rewrite <- (rounded_format (IZR k)) by (apply format_IZR; lia). apply rounded_le. lra. }
    assert (Fl : Zfloor (rounded (d * IZR n)) = k) by (apply Zfloor_imp; rewrite plus_IZR; lra).
    rewrite Fl. lia.
Qed.
Print Assumptions C83_all_reached.

(** A point of the map is followed, when it can be projected: always with a drop chance of
    zero, never with a drop chance of one, and otherwise when the draw is at least the inverse
    of the drop chance; it is not when the draw is less, up to a rounding error. *)
Theorem C83_dropped : forall k w2c draw chance point, is_draw draw -> (0 <= chance <= 2 ^ 32)%Z ->
  let seen := match camera_to_screen k (point_to_camera w2c point) with Some s => Some (vx s, vy s) | None => None end in
  (chance = 0%Z -> add_to_tracked k w2c draw chance point = seen) /\
  (chance = 1%Z -> add_to_tracked k w2c draw chance point = None) /\
  ((0 < chance)%Z -> / IZR chance <= draw -> add_to_tracked k w2c draw chance point = seen) /\
  ((0 < chance)%Z -> draw <= (1 - / 2 ^ 53) / IZR chance -> add_to_tracked k w2c draw chance point = None).
Proof.
  intros k w2c draw chance point D C seen. unfold add_to_tracked. fold seen.
  assert (F : forall b, (0 < chance)%Z -> (random_uint draw 0 chance =? 0)%Z = b ->
     (if (chance =? 0)%Z || negb (random_uint draw 0 chance =? 0)%Z then seen else None) = if b then None else seen).
  { intros b P E. rewrite E. destruct (Z.eqb_spec chance 0); [lia|]. now destruct b. }
  split; [|split; [|split]].
  - intros ->. reflexivity.
  - intros ->. rewrite (F true); [reflexivity|lia|]. pose proof (C83_in_range draw 0 1 D ltac:(lia) ltac:(lia)). lia.
  - intros P H. rewrite (F false); [reflexivity|exact P|]. apply Z.eqb_neq. unfold random_uint. rewrite Z.sub_0_r, Z.add_0_l.
    assert (A : 1 <= rounded (draw * IZR chance)).
    { rewrite <- (rounded_format 1) by (apply (format_IZR 1); lia). apply rounded_le.
      assert (0 < IZR chance) by (apply IZR_lt; lia). rewrite <- (Rinv_l (IZR chance)) by lra. apply Rmult_le_compat_r; lra. }
    assert (B : (1 <= Zfloor (rounded (draw * IZR chance)))%Z) by (apply Zfloor_lub; exact A). lia.
  - intros P H. rewrite (F true); [reflexivity|exact P|]. apply Z.eqb_eq. unfold random_uint. rewrite Z.sub_0_r, Z.add_0_l.
    assert (0 < IZR chance) by (apply IZR_lt; lia).
    assert (X : draw * IZR chance <= 1 - / 2 ^ 53).
    { apply (Rmult_le_compat_r (IZR chance)) in H; [|lra]. unfold Rdiv in H. rewrite Rmult_assoc, Rinv_l, Rmult_1_r in H by lra. exact H. }
    assert (E53 : / 2 ^ 53 = bpow radix2 (-53)).
    { change (bpow radix2 (-53)) with (/ IZR (2 ^ 53)). f_equal. now rewrite pow_IZR. }
    rewrite E53 in X.
    assert (F1 : generic_format radix2 fexp (1 - bpow radix2 (-53))).
    { replace (1 - bpow radix2 (-53)) with (IZR (2 ^ 53 - 1) * bpow radix2 (-53)).
      - apply format_F2R; lia.
      - rewrite minus_IZR, Rmult_minus_distr_r. change (IZR (2 ^ 53)) with (bpow radix2 53). rewrite <- bpow_plus.
        change (bpow radix2 (53 + -53)) with 1. ring. }
    assert (R : rounded (draw * IZR chance) <= 1 - bpow radix2 (-53)) by (rewrite <- (rounded_format _ F1); now apply rounded_le).
    assert (R0 : 0 <= rounded (draw * IZR chance)).
    { rewrite <- (rounded_format 0) by apply generic_format_0. apply rounded_le. destruct D as [_ [D _]]. apply Rmult_le_pos; lra. }
    pose proof (bpow_gt_0 radix2 (-53)). apply Zfloor_imp. cbn. lra.
Qed.
Print Assumptions C83_dropped.

(** A die: the draw of 1/2 gives the fourth face of six; with a drop chance of 1000 it follows
    the point. *)
Example C83_example : is_draw (/ 2) /\ random_uint (/ 2) 0 6 = 3%Z /\
  add_to_tracked (intrinsics 500 500 320 240) id4 (/ 2) 1000 (mkV 0 0 1000) = Some (320, 240).
Proof.
  assert (F : generic_format radix2 fexp (/ 2)) by (apply (format_F2R 1 (-1)) || (rewrite <- (Rmult_1_l (/ 2)); apply (format_F2R 1 (-1)); lia)).
  assert (D : is_draw (/ 2)) by (split; [now rewrite rounded_format|lra]).
  split; [exact D|]. split.
  - unfold random_uint. replace (/ 2 * IZR (6 - 0)) with 3 by (cbn; lra). rewrite rounded_format by (apply (format_IZR 3); lia).
    change 3 with (IZR 3). rewrite Zfloor_IZR. reflexivity.
  - destruct (C83_dropped (intrinsics 500 500 320 240) id4 (/ 2) 1000 (mkV 0 0 1000) D ltac:(lia)) as (_ & _ & A & _).
    rewrite A; [|lia|apply Rinv_le_contravar; lra].
    assert (P : point_to_camera id4 (mkV 0 0 1000) = mkV 0 0 1000).
    { unfold point_to_camera, mulv4, id4, homogeneous, mvmul, mid, dot, vadd, vscal, v0. cbn. f_equal; field. }
    rewrite P, to_screen_value by (cbn; lra). cbn. f_equal. f_equal; field.
Qed.
