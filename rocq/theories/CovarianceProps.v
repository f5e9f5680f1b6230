(** Properties of the covariances of points and planes. *)
From Coq Require Import Lra Psatz.
From Coquelicot Require Import Coquelicot.
From Verif Require Import GeometryProps InverseDepthProps.
From Verif Require Import PlaneSegmentModel InverseDepthSpec.
From Verif Require Import Vec3.
Local Open Scope R_scope.

(** ** Propagation *)

Lemma propagate_quad cov j v : quad (propagate cov j) v = quad cov (mvmul (mT j) v).
Proof. unfold quad, propagate. now rewrite !mvmul_mmul, dot_mvmul. Qed.
Lemma propagate_valid cov j : covariance cov -> covariance (propagate cov j).
Proof.
  intros [S P]. split.
  - unfold msym, propagate in *. now rewrite !mT_mmul, mT_mT, S, mmul_assoc.
  - intros v. rewrite propagate_quad. apply P.
Qed.
Lemma sum_valid a b : covariance a -> covariance b -> covariance (madd a b).
Proof.
  intros [S P] [S' P']. split.
  - unfold msym in *. now rewrite mT_madd, S, S'.
  - intros v. unfold quad. rewrite mvmul_madd, dot_add_r. pose proof (P v). pose proof (P' v). unfold quad in *. lra.
Qed.
Lemma epsilon_valid e : 0 <= e -> covariance (mscal e mid).
Proof.
  intros E. split; [unfold msym; v3ring|]. intros v. replace (quad (mscal e mid) v) with (e * sqn v) by v3ring.
  pose proof (sqn_nonneg v). nra.
Qed.

(** ** C69: from the screen to the camera *)

(** The depth of a pixel has a positive quantization, and its covariance is valid: building it
    does not throw. *)
Theorem C69_screen_covariance_valid :
  forall margin multiplier sigma s valid,
  covariance (screen_point_covariance margin multiplier sigma s valid) /\
  forall v, v <> v0 -> 0 < quad (screen_point_covariance margin multiplier sigma s valid) v.
Proof.
  intros a b c s valid. unfold screen_point_covariance.
  set (q := if valid then _ else _).
  assert (Q : / 2 <= q).
  { unfold q. destruct valid; [|lra]. unfold depth_quantization. eapply Rle_trans; [|apply Rmax_r]. lra. }
  clearbody q.
  assert (E : forall v, quad (mkM3 (mkV (1 / 100) 0 0) (mkV 0 (1 / 100) 0) (mkV 0 0 q)) v = vx v * vx v / 100 + vy v * vy v / 100 + q * (vz v * vz v))
    by (intros v; v3des; v3unfold; field).
  split.
  - split; [unfold msym; v3ring|]. intros v. rewrite E. nra.
  - intros v N. rewrite E. destruct v as [x y z]. cbn [vx vy vz].
    destruct (Req_dec x 0) as [->|X]; [|nra]. destruct (Req_dec y 0) as [->|Y]; [|nra].
    destruct (Req_dec z 0) as [->|Z]; [now destruct N|]. nra.
Qed.
Lemma propagate_triangular a b c d p r q :
  propagate (mkM3 (mkV p 0 0) (mkV 0 r 0) (mkV 0 0 q)) (mkM3 (mkV a 0 b) (mkV 0 c d) (mkV 0 0 1)) =
  mkM3 (mkV (a * a * p + b * b * q) (b * d * q) (b * q)) (mkV (b * d * q) (c * c * r + d * d * q) (d * q)) (mkV (b * q) (d * q) q).
Proof.
  assert (E : mmul (mkM3 (mkV p 0 0) (mkV 0 r 0) (mkV 0 0 q)) (mT (mkM3 (mkV a 0 b) (mkV 0 c d) (mkV 0 0 1))) =
              mkM3 (mkV (p * a) 0 0) (mkV 0 (r * c) 0) (mkV (q * b) (q * d) q)).
  { repeat (apply mat_eq || apply vec_eq); v3unfold; ring. }
  unfold propagate. rewrite E. repeat (apply mat_eq || apply vec_eq); v3unfold; ring.
Qed.
Definition exact_camera_jacobian (fx fy cx cy : R) (s : vec) : mat :=
  mkM3 (mkV (vz s / fx) 0 ((vx s - cx) / fx)) (mkV 0 (vz s / fy) ((vy s - cy) / fy)) (mkV 0 0 1).
Lemma locally_abs a b e : e < Rabs a -> locally 0 (fun t => e < Rabs (a + t * b)).
Proof.
  intros H. destruct (Rlt_dec 0 a).
  - rewrite Rabs_right in H by lra. eapply filter_imp; [|apply (locally_linear_pos (a - e) b); lra]. cbv beta. intros t ?.
    eapply Rlt_le_trans; [|apply Rle_abs]. lra.
  - rewrite Rabs_left1 in H by lra. eapply filter_imp; [|apply (locally_linear_pos (- a - e) (- b)); lra]. cbv beta. intros t ?.
    rewrite <- Rabs_Ropp. eapply Rlt_le_trans; [|apply Rle_abs]. lra.
Qed.
(** The derivative of the conversion to camera space *)
Lemma exact_camera_jacobian_ok fx fy cx cy ki s :
  fx <> 0 -> fy <> 0 -> is_inverse3 (intrinsics fx fy cx cy) ki ->
  0 < vx s -> 0 < vy s -> machine_epsilon < Rabs (vz s) ->
  is_jacobian (fun p => value_of (screen_to_camera ki p)) (exact_camera_jacobian fx fy cx cy s) s.
Proof.
  intros A B I X Y Z.
  apply (jacobian_ext (fun p => mkV (vz p * ((vx p - cx) / fx)) (vz p * ((vy p - cy) / fy)) (vz p))).
  - intros u. pose proof (locally_linear_pos (vx s) (vx u) X) as LX. pose proof (locally_linear_pos (vy s) (vy u) Y) as LY.
    pose proof (locally_abs (vz s) (vz u) _ Z) as LZ.
    eapply filter_imp; [|apply filter_and; [exact LX|apply filter_and; [exact LY|exact LZ]]].
    cbv beta. intros t [HX [HY HZ]]. rewrite (to_camera_value fx fy cx cy) by assumption. cbn [vadd vscal vx vy vz].
    destruct (Rlt_dec (vx s + t * vx u) 0); [lra|]. destruct (Rlt_dec (vy s + t * vy u) 0); [lra|].
    now rewrite (proj2 (double_equal_0 _) HZ).
  - intros u. unfold exact_camera_jacobian, vadd, vscal, dot. cbn [vx vy vz r0 r1 r2].
    split; [|split]; (auto_derive; [easy|]); at0; field; easy.
Qed.
(** To the right of and below the center of the image, the jacobian of the code is the
    derivative, and the covariance is the propagated one. *)
Theorem C69_exact_after_center :
  forall fx fy cx cy ki s cov j,
  fx <> 0 -> fy <> 0 -> is_inverse3 (intrinsics fx fy cx cy) ki ->
  0 < vx s -> 0 < vy s -> machine_epsilon < Rabs (vz s) ->
  is_jacobian (fun p => value_of (screen_to_camera ki p)) j s ->
  cx <= vx s -> cy <= vy s ->
  camera_covariance fx fy cx cy s cov = propagate cov j.
Proof.
  intros fx fy cx cy ki s cov j A B I X Y Z J HX HY.
  rewrite (jacobian_unique _ _ _ _ J (exact_camera_jacobian_ok fx fy cx cy ki s A B I X Y Z)).
  unfold camera_covariance, camera_jacobian. rewrite !Rabs_right by lra. reflexivity.
Qed.
(** Everywhere, for the covariance of a pixel (it is diagonal), the variances and the
    covariance of the two axes of the image are right up to the sign, and the variances are
    exactly right. *)
Theorem C69_variances :
  forall fx fy cx cy ki s margin multiplier sigma valid j,
  fx <> 0 -> fy <> 0 -> is_inverse3 (intrinsics fx fy cx cy) ki ->
  0 < vx s -> 0 < vy s -> machine_epsilon < Rabs (vz s) ->
  is_jacobian (fun p => value_of (screen_to_camera ki p)) j s ->
  let cov := screen_point_covariance margin multiplier sigma s valid in
  let code := camera_covariance fx fy cx cy s cov in
  let exact := propagate cov j in
  vx (r0 code) = vx (r0 exact) /\ vy (r1 code) = vy (r1 exact) /\ vz (r2 code) = vz (r2 exact) /\
  (vx s < cx -> vz (r0 code) = - vz (r0 exact)) /\ (vy s < cy -> vz (r1 code) = - vz (r1 exact)) /\
  covariance code.
Proof.
  intros fx fy cx cy ki s a b c valid j A B I X Y Z J cov code exact.
  assert (V : covariance code) by apply propagate_valid, C69_screen_covariance_valid.
  revert V. subst code exact.
  rewrite (jacobian_unique _ _ _ _ J (exact_camera_jacobian_ok fx fy cx cy ki s A B I X Y Z)).
  unfold camera_covariance. set (code := propagate cov (camera_jacobian fx fy cx cy s)).
  set (exact := propagate cov (exact_camera_jacobian fx fy cx cy s)). intros V.
  assert (Sq : forall x, Rabs x * Rabs x = x * x) by (intros x; apply Rsqr_abs with (x := x) || (rewrite <- !(Rabs_mult); apply Rabs_right; nra)).
  subst code exact. subst cov. unfold screen_point_covariance in *. set (q := if valid then _ else _) in *. clearbody q.
  unfold camera_jacobian, exact_camera_jacobian in *. rewrite !propagate_triangular in *. cbn [vx vy vz r0 r1 r2].
  pose proof (Sq (vx s - cx)) as QX. pose proof (Sq (vy s - cy)) as QY.
  repeat match goal with |- _ /\ _ => split end; try assumption.
  - clear V. generalize dependent (Rabs (vx s - cx)). intros r Qr.
    transitivity (vz s * vz s / (100 * fx * fx) + q * (r * r) / (fx * fx)); [field; easy|]. rewrite Qr. field. easy.
  - clear V. generalize dependent (Rabs (vy s - cy)). intros r Qr.
    transitivity (vz s * vz s / (100 * fy * fy) + q * (r * r) / (fy * fy)); [field; easy|]. rewrite Qr. field. easy.
  - ring.
  - intros H. rewrite (Rabs_left (vx s - cx)) by lra. field. easy.
  - intros H. rewrite (Rabs_left (vy s - cy)) by lra. field. easy.
Qed.
(** Left of the center of the image, the covariance of the lateral position and of the depth
    has the wrong sign. *)
Theorem C69_covariance_refuted :
  exists fx fy cx cy ki s cov j,
  0 < fx /\ 0 < fy /\ is_inverse3 (intrinsics fx fy cx cy) ki /\
  in_screen 640 480 s /\ covariance cov /\
  is_jacobian (fun p => value_of (screen_to_camera ki p)) j s /\
  camera_covariance fx fy cx cy s cov <> propagate cov j.
Proof.
  exists 500, 500, 320, 240, (inverse_intrinsics 500 500 320 240), (mkV 100 300 1000), mid,
    (exact_camera_jacobian 500 500 320 240 (mkV 100 300 1000)).
  split; [lra|]. split; [lra|]. split; [apply inverse_intrinsics_ok; lra|].
  split; [unfold in_screen; cbn; lra|]. split.
  { split; [unfold msym; v3ring|]. intros v. replace (quad mid v) with (sqn v) by v3ring. apply sqn_nonneg. }
  split.
  - apply exact_camera_jacobian_ok; cbn; try lra.
    + apply inverse_intrinsics_ok; lra.
    + rewrite Rabs_right by lra. unfold machine_epsilon. apply Rlt_trans with (/ 1); [|rewrite Rinv_1; lra].
      apply Rinv_lt_contravar; [rewrite Rmult_1_l; apply pow_lt; lra|]. apply Rlt_pow_R1; [lra|lia].
  - intros E. apply (f_equal (fun m => vz (r0 m))) in E. revert E.
    unfold camera_covariance, camera_jacobian, exact_camera_jacobian, mid. rewrite !propagate_triangular. cbn [vx vy vz r0 r1 r2].
    rewrite (Rabs_left (100 - 320)) by lra. lra.
Qed.
Lemma linear_jacobian c l p : is_jacobian (fun p => vadd c (mvmul l p)) l p.
Proof.
  intros [u1 u2 u3]. destruct c as [c1 c2 c3], p as [p1 p2 p3], l as [[a1 a2 a3] [b1 b2 b3] [d1 d2 d3]].
  unfold mvmul, vadd, vscal, dot. cbn [vx vy vz r0 r1 r2].
  split; [|split]; (auto_derive; [easy|ring]).
Qed.
(** Between the camera and the world, the covariance is the one of the rotated point, plus the
    covariance of the pose: the variances along all directions only grow, and it is valid. *)
Theorem C69_moves :
  forall q t cov pose_cov, unit_quat q -> covariance cov -> covariance pose_cov ->
  let m := camera_to_world q t in
  covariance (move_covariance m cov pose_cov) /\
  (forall p, is_jacobian (point_to_world m) (lin m) p) /\
  forall u, quad (move_covariance m cov pose_cov) (mvmul (lin m) u) = quad cov u + quad pose_cov (mvmul (lin m) u).
Proof.
  intros q t cov pc U C P m. split; [|split].
  - apply sum_valid; [now apply propagate_valid|assumption].
  - intros p. apply (jacobian_ext (fun p => vadd (col m) (mvmul (lin m) p))); [|apply linear_jacobian].
    intros u. apply filter_forall. intros x. apply rigid_point. now apply camera_to_world_rigid.
  - intros u. unfold move_covariance, quad at 1. rewrite mvmul_madd, dot_add_r. f_equal.
    change (quad (propagate cov (lin m)) (mvmul (lin m) u) = quad cov u). rewrite propagate_quad, orthogonal_inv; [reflexivity|].
    now apply camera_to_world_orthogonal.
Qed.

(** ** C70: covariances of planes *)

Lemma jacobian_43 p : is_unit (pl_normal p) -> pl_d p <> 0 ->
  upper (plane_jacobian p) = mscal (/ Rabs (pl_d p)) (msub mid (outer (pl_normal p) (pl_normal p))) /\
  lower (plane_jacobian p) = vscal (- (pl_d p / Rabs (pl_d p)) / (pl_d p * pl_d p)) (pl_normal p).
Proof.
  intros U N. destruct p as [[x y z] d]. unfold is_unit in U. cbn [pl_normal pl_d] in *. unfold dot in U. cbn [vx vy vz] in U.
  unfold plane_jacobian. cbn [pl_normal pl_d vscal vx vy vz].
  assert (S : d * x * (d * x) + d * y * (d * y) + d * z * (d * z) = d * d).
  { replace (d * x * (d * x) + d * y * (d * y) + d * z * (d * z)) with (d * d * (x * x + y * y + z * z)) by ring. rewrite U. ring. }
  rewrite S. replace (sqrt (d * d)) with (Rabs d) by (symmetry; apply sqrt_Rsqr_abs).
  assert (A : Rabs d <> 0) by now apply Rabs_no_R0.
  cbn [upper lower]. unfold mscal, msub, mid, outer, vscal, vsub. cbn [r0 r1 r2 vx vy vz].
  split; repeat (apply mat_eq || apply vec_eq); cbn [r0 r1 r2 vx vy vz]; field; easy.
Qed.
(** The covariance of the reduced parameters uses the derivative of the product of the normal
    and the distance. *)
Theorem C70_reduced_jacobian :
  forall (p : plane) (u : vec) (e : R),
  let value t := vscal (pl_d p + t * e) (vadd (pl_normal p) (vscal t u)) in
  let '(a, n) := reduced_jacobian p in
  is_derive (fun t => vx (value t)) 0 (vx (vadd (mvmul a u) (vscal e n))) /\
  is_derive (fun t => vy (value t)) 0 (vy (vadd (mvmul a u) (vscal e n))) /\
  is_derive (fun t => vz (value t)) 0 (vz (vadd (mvmul a u) (vscal e n))).
Proof.
  intros p u e value. unfold reduced_jacobian. subst value.
  unfold vscal, vadd, mvmul, mscal, mid, dot. cbn [vx vy vz r0 r1 r2].
  split; [|split]; (auto_derive; [easy|]); at0; cbn [vx vy vz vscal]; ring.
Qed.
(** The first three rows of the other jacobian are the derivative of the normal. *)
Theorem C70_normal_rows :
  forall p, is_unit (pl_normal p) -> 0 < pl_d p ->
  is_jacobian vnormalized (upper (plane_jacobian p)) (vscal (pl_d p) (pl_normal p)) /\
  vnormalized (vscal (pl_d p) (pl_normal p)) = pl_normal p.
Proof.
  intros p U D. set (v := vscal (pl_d p) (pl_normal p)).
  assert (Nv : norm v = pl_d p) by (unfold v; rewrite norm_scal, norm_unit, Rabs_right by (assumption || lra); ring).
  assert (V : v <> v0). { intros E. rewrite E in Nv. unfold norm in Nv. replace (sqn v0) with 0 in Nv by v3ring. rewrite sqrt_0 in Nv. lra. }
  split.
  - destruct (jacobian_43 p U) as [E _]; [lra|]. rewrite E, Rabs_right by lra.
    apply (jacobian_ext (fun q => vscal (/ norm q) q)).
    + intros u. assert (L : locally 0 (fun t : R => 0 < norm (vadd v (vscal t u)))).
      { apply (locally_pos _ 0 _ (derive_norm v u V)). replace (vadd v (vscal 0 u)) with v by v3ring. lra. }
      eapply filter_imp; [|exact L]. cbv beta. intros t H. unfold vnormalized.
      destruct (Rlt_dec 0 (sqn (vadd v (vscal t u)))) as [_|X]; [reflexivity|]. exfalso. apply X. rewrite <- norm_sqr. nra.
    + intros u.
      assert (I : is_derive (fun t : R => / norm (vadd v (vscal t u))) 0 (- (dot v u / norm v) / (norm v) ^ 2)).
      { evar_last; [apply (is_derive_inv _ 0 _ (derive_norm v u V)); replace (vadd v (vscal 0 u)) with v by v3ring; lra|].
        replace (vadd v (vscal 0 u)) with v by v3ring. reflexivity. }
      rewrite Nv in I.
      assert (K : forall a b, is_derive (fun t : R => / norm (vadd v (vscal t u)) * (a + t * b)) 0
                    (- (dot v u / pl_d p) / pl_d p ^ 2 * a + / pl_d p * b)).
      { intros a b. evar_last.
        - apply (is_derive_mult (fun t => / norm (vadd v (vscal t u))) (fun t => a + t * b) 0 _ _ I (derive_linear a b)).
          intros; apply Rmult_comm.
        - unfold plus, mult; cbn. replace (vadd v (vscal 0 u)) with v by v3ring. rewrite Nv. ring. }
      cbn [vx vy vz vscal vadd].
      split; [|split]; (evar_last; [apply K|]); clear K I; unfold v; clear - D; destruct u as [u1 u2 u3]; destruct p as [[nx ny nz] d]; cbn [pl_normal pl_d] in *; v3unfold; field; lra.
  - unfold v, vnormalized. fold v. destruct (Rlt_dec 0 (sqn v)) as [_|X].
    + rewrite Nv. unfold v. destruct p as [[nx ny nz] d]; cbn [pl_normal pl_d] in *. v3unfold. f_equal; field; lra.
    + exfalso. apply X. rewrite <- norm_sqr, Nv. nra.
Qed.
(** The last row is the derivative of the inverse of the distance, not of the distance. *)
Theorem C70_distance_row :
  forall p u, is_unit (pl_normal p) -> 0 < pl_d p ->
  let v := vscal (pl_d p) (pl_normal p) in
  is_derive (fun t : R => 1 / norm (vadd v (vscal t u))) 0 (dot (lower (plane_jacobian p)) u) /\
  is_derive (fun t : R => norm (vadd v (vscal t u))) 0 (dot (pl_normal p) u) /\
  norm v = pl_d p.
Proof.
  intros p u U D v.
  assert (Nv : norm v = pl_d p) by (unfold v; rewrite norm_scal, norm_unit, Rabs_right by (assumption || lra); ring).
  assert (V : v <> v0). { intros E. rewrite E in Nv. unfold norm in Nv. replace (sqn v0) with 0 in Nv by v3ring. rewrite sqrt_0 in Nv. lra. }
  split; [|split; [|exact Nv]].
  - apply (is_derive_ext (fun t => / norm (vadd v (vscal t u)))); [intros t; unfold Rdiv; now rewrite Rmult_1_l|].
    evar_last; [apply (is_derive_inv _ 0 _ (derive_norm v u V)); replace (vadd v (vscal 0 u)) with v by v3ring; lra|].
    replace (vadd v (vscal 0 u)) with v by v3ring. rewrite Nv. destruct (jacobian_43 p U) as [_ ->]; [lra|].
    rewrite Rabs_right by lra. unfold v. destruct p as [[nx ny nz] d]; cbn [pl_normal pl_d] in *. v3unfold. field. lra.
  - evar_last; [exact (derive_norm v u V)|]. rewrite Nv. unfold v. destruct p as [[nx ny nz] d]; cbn [pl_normal pl_d] in *. v3unfold. field. lra.
Qed.
(** So the variance of the distance is the variance of the points along the normal, divided by
    the fourth power of the distance. *)
Lemma quad_scal m k v : quad m (vscal k v) = k * k * quad m v.
Proof. unfold quad. rewrite mvmul_scal, dot_scal_l, dot_scal_r. ring. Qed.
Lemma sign_sqr d : d <> 0 -> d / Rabs d * (d / Rabs d) = 1.
Proof.
  intros N. assert (A : Rabs d <> 0) by now apply Rabs_no_R0.
  assert (S : Rabs d * Rabs d = d * d) by (rewrite <- Rabs_mult; apply Rabs_right; nra).
  transitivity (d * d / (Rabs d * Rabs d)); [field; easy|]. rewrite S. field. easy.
Qed.
Theorem C70_distance_variance :
  forall p cov epsilon, is_unit (pl_normal p) -> pl_d p <> 0 ->
  corner (plane_covariance p cov epsilon) = quad cov (pl_normal p) / (pl_d p) ^ 4 + epsilon.
Proof.
  intros p cov e U N. unfold plane_covariance. cbn [corner]. destruct (jacobian_43 p U N) as [_ ->].
  rewrite quad_scal. f_equal. set (s := pl_d p / Rabs (pl_d p)).
  replace (- s / (pl_d p * pl_d p) * (- s / (pl_d p * pl_d p))) with (s * s / pl_d p ^ 4) by (field; easy).
  unfold s. rewrite sign_sqr by assumption. field. easy.
Qed.
Theorem C70_distance_variance_refuted :
  exists p cov, is_unit (pl_normal p) /\ 0 < pl_d p /\ covariance cov /\
    corner (plane_covariance p cov 0) * 10 ^ 12 = quad cov (pl_normal p) /\ 0 < quad cov (pl_normal p).
Proof.
  exists (mkPlane (mkV 0 0 1) 1000), mid. cbn [pl_normal pl_d].
  assert (U : is_unit (mkV 0 0 1)) by (v3unfold; ring).
  assert (Q : quad mid (mkV 0 0 1) = 1) by (v3unfold; ring).
  split; [exact U|]. split; [lra|]. split.
  - split; [unfold msym; v3ring|]. intros v. replace (quad mid v) with (sqn v) by v3ring. apply sqn_nonneg.
  - rewrite C70_distance_variance by (cbn [pl_normal pl_d]; (exact U || lra)). cbn [pl_normal pl_d]. rewrite Q. split; [field|lra].
Qed.
(** Going to the four parameters and back keeps the variances along the plane and divides the
    variance along the normal by the fourth power of the distance. *)
Lemma madd_0 a : madd a (mscal 0 mid) = a.
Proof. v3ring. Qed.
Lemma reduced_quad p cov e v : row cov = col cov ->
  quad (reduced_covariance p cov e) v =
    pl_d p * pl_d p * quad (lin cov) v + 2 * pl_d p * dot v (col cov) * dot v (pl_normal p)
    + corner cov * (dot v (pl_normal p) * dot v (pl_normal p)) + e * sqn v.
Proof.
  intros Rw. unfold reduced_covariance, reduced_jacobian. rewrite Rw.
  assert (I : forall k w, mvmul (mscal k mid) w = vscal k w) by (intros; v3ring).
  assert (T : forall k, mT (mscal k mid) = mscal k mid) by (intros; v3ring).
  unfold quad. rewrite !mvmul_madd, !mvmul_mmul, !T, !I, !mvmul_outer.
  assert (O : mvmul (mscal (corner cov) (outer (pl_normal p) (pl_normal p))) v = vscal (corner cov * dot (pl_normal p) v) (pl_normal p)) by v3ring.
  rewrite O, mvmul_scal, !dot_add_r, !dot_scal_r, (dot_comm v (pl_normal p)), !(dot_comm (vscal _ _) v), !dot_scal_r. unfold sqn. ring.
Qed.
Lemma quad_add m u v : msym m -> quad m (vadd u v) = quad m u + 2 * dot v (mvmul m u) + quad m v.
Proof.
  intros S. unfold quad. rewrite mvmul_add, !dot_add_r, !dot_add_l.
  assert (E : dot u (mvmul m v) = dot v (mvmul m u)) by (rewrite dot_mvmul, S; apply dot_comm). rewrite E. ring.
Qed.
Theorem C70_round_trip :
  forall p cov, is_unit (pl_normal p) -> pl_d p <> 0 -> msym cov ->
  let back := reduced_covariance p (plane_covariance p cov 0) 0 in
  (forall u, dot u (pl_normal p) = 0 -> quad back u = quad cov u) /\
  quad back (pl_normal p) = quad cov (pl_normal p) / (pl_d p) ^ 4.
Proof.
  intros p cov U N S back. destruct (jacobian_43 p U N) as [Ju Jl].
  assert (A : Rabs (pl_d p) <> 0) by now apply Rabs_no_R0.
  assert (DD : Rabs (pl_d p) * Rabs (pl_d p) = pl_d p * pl_d p) by (rewrite <- Rabs_mult; apply Rabs_right; nra).
  assert (T : forall v, mvmul (mT (upper (plane_jacobian p))) v = vscal (/ Rabs (pl_d p)) (vsub v (vscal (dot v (pl_normal p)) (pl_normal p)))).
  { intros v. rewrite Ju. generalize (pl_normal p) (/ Rabs (pl_d p)). intros. v3ring. }
  assert (C : corner (plane_covariance p cov 0) = quad cov (pl_normal p) / (pl_d p) ^ 4) by (rewrite C70_distance_variance by assumption; ring).
  assert (L : forall v, quad (lin (plane_covariance p cov 0)) v = quad cov (vsub v (vscal (dot v (pl_normal p)) (pl_normal p))) / (pl_d p * pl_d p)).
  { intros v. cbn [plane_covariance lin]. rewrite madd_0, propagate_quad, T, quad_scal, <- DD. field. easy. }
  assert (Cl : forall v, dot v (col (plane_covariance p cov 0)) =
     dot (mvmul (mT (upper (plane_jacobian p))) v) (mvmul cov (lower (plane_jacobian p)))) by (intros v; cbn [plane_covariance col]; apply dot_mvmul).
  split.
  - intros u O. unfold back. rewrite reduced_quad by reflexivity. rewrite L, O.
    replace (vsub u (vscal 0 (pl_normal p))) with u by v3ring. field. easy.
  - unfold back. rewrite reduced_quad by reflexivity. rewrite L, C, Cl, T. unfold is_unit in U. rewrite U.
    replace (vsub (pl_normal p) (vscal 1 (pl_normal p))) with v0 by v3ring.
    replace (vscal (/ Rabs (pl_d p)) v0) with v0 by v3ring. rewrite dot_0_l.
    replace (quad cov v0) with 0 by v3ring. field. easy.
Qed.
Theorem C70_round_trip_refuted :
  exists p cov, is_unit (pl_normal p) /\ pl_d p <> 0 /\ covariance cov /\
    reduced_covariance p (plane_covariance p cov 0) 0 <> cov.
Proof.
  exists (mkPlane (mkV 0 0 1) 2), mid. cbn [pl_normal pl_d].
  assert (U : is_unit (mkV 0 0 1)) by (v3unfold; ring).
  split; [exact U|]. split; [lra|]. split.
  - split; [unfold msym; v3ring|]. intros v. replace (quad mid v) with (sqn v) by v3ring. apply sqn_nonneg.
  - intros E. destruct (C70_round_trip (mkPlane (mkV 0 0 1) 2) mid) as [_ H]; cbn [pl_normal pl_d]; try (exact U || lra || (unfold msym; v3ring)).
    cbn [pl_normal pl_d] in H. rewrite E in H. replace (quad mid (mkV 0 0 1)) with 1 in H by (v3unfold; ring). lra.
Qed.
(** Both covariances are valid: the conversions do not throw for a valid covariance. *)
Definition quad4 (m : m4) (v : v4) : R := dot (hd4 v) (hd4 (mulv4 m v)) + tl4 v * tl4 (mulv4 m v).
Theorem C70_valid :
  forall p cov epsilon, covariance cov -> 0 <= epsilon ->
  let c := plane_covariance p cov epsilon in
  msym (lin c) /\ row c = col c /\ forall v, 0 <= quad4 c v.
Proof.
  intros p cov e [S P] E c. split; [|split].
  - apply (sum_valid (propagate cov (upper (plane_jacobian p))) (mscal e mid)); [now apply propagate_valid|now apply epsilon_valid].
  - reflexivity.
  - intros [h l]. set (u := upper (plane_jacobian p)). set (w := lower (plane_jacobian p)).
    assert (Q : quad4 c (mkV4 h l) = quad cov (vadd (mvmul (mT u) h) (vscal l w)) + e * (sqn h + l * l)).
    { rewrite quad_add, quad_scal by assumption.
      unfold quad4, c, plane_covariance, mulv4. cbn [lin col row corner hd4 tl4]. fold u w.
      rewrite mvmul_madd, !dot_add_r, dot_scal_r.
      change (dot h (mvmul (propagate cov u) h)) with (quad (propagate cov u) h). rewrite propagate_quad.
      assert (I : dot h (mvmul (mscal e mid) h) = e * sqn h) by v3ring. rewrite I.
      assert (X : dot h (mvmul u (mvmul cov w)) = dot w (mvmul cov (mvmul (mT u) h))).
      { rewrite (dot_mvmul u), (dot_mvmul cov), S. apply dot_comm. }
      rewrite (dot_comm (mvmul u (mvmul cov w)) h), X, dot_scal_l. ring. }
    rewrite Q. pose proof (P (vadd (mvmul (mT u) h) (vscal l w))). pose proof (sqn_nonneg h). nra.
Qed.
Theorem C70_reduced_valid :
  forall p cov epsilon, msym (lin cov) -> row cov = col cov -> (forall v, 0 <= quad4 cov v) -> 0 <= epsilon ->
  covariance (reduced_covariance p cov epsilon).
Proof.
  intros p cov e S Rw P E. split.
  - unfold msym in *. unfold reduced_covariance, reduced_jacobian. rewrite Rw.
    rewrite !mT_madd, !mT_mmul, !mT_outer, mT_mT, S.
    assert (T : forall k, mT (mscal k mid) = mscal k mid) by (intros; v3ring). rewrite !T.
    assert (O : forall k n, mT (mscal k (outer n n)) = mscal k (outer n n)) by (intros; v3ring). rewrite O.
    rewrite mmul_assoc. generalize (mmul (mmul (mscal (pl_d p) mid) (lin cov)) (mscal (pl_d p) mid)). intros a.
    generalize (outer (mvmul (mscal (pl_d p) mid) (col cov)) (pl_normal p)). intros b.
    generalize (outer (pl_normal p) (mvmul (mscal (pl_d p) mid) (col cov))). intros c.
    generalize (mscal (corner cov) (outer (pl_normal p) (pl_normal p))) (mscal e mid). intros d f. clear. v3ring.
  - intros v. rewrite reduced_quad by assumption.
    pose proof (P (mkV4 (vscal (pl_d p) v) (dot v (pl_normal p)))) as Q. unfold quad4, mulv4 in Q. cbn [hd4 tl4] in Q.
    rewrite Rw, mvmul_scal, !dot_add_r, !dot_scal_l, !dot_scal_r, (dot_comm (col cov) v) in Q.
    change (dot v (mvmul (lin cov) v)) with (quad (lin cov) v) in Q.
    pose proof (sqn_nonneg v). nra.
Qed.

(** ** Examples: the hypotheses hold for non-trivial cases *)
Example C69_example :
  vz (r0 (camera_covariance 500 500 320 240 (mkV 100 300 1000) mid)) = 220 / 500.
Proof.
  unfold camera_covariance, camera_jacobian, mid. rewrite propagate_triangular. cbn [vx vy vz r0 r1 r2].
  rewrite (Rabs_left (100 - 320)) by lra. lra.
Qed.
Example C70_example :
  let p := mkPlane (mkV 0 0 1) 2 in
  is_unit (pl_normal p) /\ corner (plane_covariance p (mscal 16 mid) (1 / 100)) = 1 + 1 / 100.
Proof.
  intros p. assert (U : is_unit (pl_normal p)) by (unfold p; cbn; v3unfold; ring). split; [exact U|].
  rewrite C70_distance_variance; [|exact U|cbn; lra]. unfold p. cbn [pl_normal pl_d].
  replace (quad (mscal 16 mid) (mkV 0 0 1)) with 16 by (v3unfold; ring). lra.
Qed.

Print Assumptions C69_variances.
Print Assumptions C69_moves.
Print Assumptions C70_round_trip.
Print Assumptions C70_normal_rows.
