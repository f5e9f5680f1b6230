(** The angles of a pose: elementary rotations, round trip, display, offset of the camera 2,
    and the vector used for the variance of the pose. *)
From Verif Require PoseVarianceProps.
From Verif Require Import PoseSpec GeometryProps PoseProps PlaneSegmentModel Vec3.
From Coq Require Import Lra Psatz List.
Import ListNotations.
Local Open Scope R_scope.

Lemma half_cos a : cos a = 1 - 2 * (sin (a / 2) * sin (a / 2)).
Proof. replace a with (2 * (a / 2)) at 1 by field. rewrite cos_2a_sin. ring. Qed.
Lemma half_sin a : sin a = 2 * (sin (a / 2) * cos (a / 2)).
Proof. replace a with (2 * (a / 2)) at 1 by field. rewrite sin_2a. ring. Qed.
Lemma cs1 a : cos a * cos a + sin a * sin a = 1.
Proof. pose proof (sin2_cos2 a) as H. unfold Rsqr in H. lra. Qed.
Lemma axis_x a : unit_quat (angle_axis a (mkV 1 0 0)) /\ rotation_matrix (angle_axis a (mkV 1 0 0)) = rot_x a.
Proof.
  pose proof (cs1 (a / 2)). split; [unfold unit_quat, angle_axis; cbn; lra|].
  unfold rotation_matrix, angle_axis, rot_x. cbn. rewrite (half_cos a), (half_sin a). apply mat_eq; apply vec_eq; cbn; ring.
Qed.
Lemma axis_y a : unit_quat (angle_axis a (mkV 0 1 0)) /\ rotation_matrix (angle_axis a (mkV 0 1 0)) = rot_y a.
Proof.
  pose proof (cs1 (a / 2)). split; [unfold unit_quat, angle_axis; cbn; lra|].
  unfold rotation_matrix, angle_axis, rot_y. cbn. rewrite (half_cos a), (half_sin a). apply mat_eq; apply vec_eq; cbn; ring.
Qed.
Lemma axis_z a : unit_quat (angle_axis a (mkV 0 0 1)) /\ rotation_matrix (angle_axis a (mkV 0 0 1)) = rot_z a.
Proof.
  pose proof (cs1 (a / 2)). split; [unfold unit_quat, angle_axis; cbn; lra|].
  unfold rotation_matrix, angle_axis, rot_z. cbn. rewrite (half_cos a), (half_sin a). apply mat_eq; apply vec_eq; cbn; ring.
Qed.

(** ** C93 *)

(** Angles become the rotation of yaw around z, then pitch around y, then roll around x,
    and a unit quaternion. *)
Theorem C93_euler_matrix :
  forall e, unit_quat (quaternion_from_euler (yaw e) (pitch e) (roll e)) /\
  matrix_from_euler e = rot_xyz (roll e) (pitch e) (yaw e).
Proof.
  intros e. unfold matrix_from_euler, quaternion_from_euler, rot_xyz.
  destruct (axis_x (roll e)) as [Ux Ex], (axis_y (pitch e)) as [Uy Ey], (axis_z (yaw e)) as [Uz Ez].
  split; [auto using unit_qmul|]. rewrite !rotation_mul by auto using unit_qmul. rewrite Ex, Ey, Ez. now rewrite mmul_assoc.
Qed.
Print Assumptions C93_euler_matrix.

(** A correct extraction of the angles gives the rotation back. *)
Theorem C93_round_trip :
  forall f q, extracts f -> unit_quat q ->
  matrix_from_euler (euler_from_quaternion f q) = rotation_matrix q.
Proof.
  intros f q E U. rewrite (proj2 (C93_euler_matrix _)). unfold euler_from_quaternion. cbn.
  apply E; [now apply rotation_orthogonal|now apply rotation_det].
Qed.
Print Assumptions C93_round_trip.

(** The three displayed numbers are the angles around z, y and x in degrees. *)
Theorem C93_display :
  forall f b, extracts f -> unit_quat (b_orientation b) ->
  exists z y x, displayed f b = [z; y; x] /\ rot_xyz (radians x) (radians y) (radians z) = matrix_of b.
Proof.
  intros f b E U. unfold displayed, euler_from_quaternion. cbn. do 3 eexists. split; [reflexivity|].
  rewrite !radians_degrees. apply E; [now apply rotation_orthogonal|now apply rotation_det].
Qed.
Print Assumptions C93_display.

(** The offset of camera 2: the point is turned around z by the x offset, then around y by the
    y offset, then around x by the z offset, and then translated. *)
Theorem C93_camera_2 :
  forall t r p, point_to_world (camera_2_to_1 t r) p = vadd (mvmul (rot_xyz (vz r) (vy r) (vx r)) p) t.
Proof.
  intros t r p. unfold camera_2_to_1. cbn zeta.
  pose proof (proj2 (C93_euler_matrix (mkEuler (vx r) (vy r) (vz r)))) as E. unfold matrix_from_euler in E. cbn [yaw pitch roll] in *.
  rewrite E. unfold point_to_world, mulv4, transformation, homogeneous. cbn [lin col row corner hd4 tl4]. f_equal. v3ring.
Qed.
Print Assumptions C93_camera_2.

Lemma rot_z_xyz a : rot_z a = rot_xyz 0 0 a.
Proof.
  unfold rot_xyz, rot_x, rot_y, rot_z. rewrite cos_0, sin_0. unfold mmul, mvmul, mT, dot. cbn [r0 r1 r2 vx vy vz].
  apply mat_eq; apply vec_eq; cbn [r0 r1 r2 vx vy vz]; ring.
Qed.
(** "The x offset turns around x" is false: it turns around z. *)
Theorem C93_camera_2_x_refuted :
  exists a, lin (camera_2_to_1 v0 (mkV a 0 0)) = rot_z a /\ lin (camera_2_to_1 v0 (mkV a 0 0)) <> rot_x a /\
  exists p, point_to_world (camera_2_to_1 v0 (mkV a 0 0)) p <> mvmul (rot_x a) p.
Proof.
  assert (E : forall a, lin (camera_2_to_1 v0 (mkV a 0 0)) = rot_z a).
  { intros a. pose proof (proj2 (C93_euler_matrix (mkEuler a 0 0))) as E. unfold matrix_from_euler in E. cbn [yaw pitch roll] in E.
    unfold camera_2_to_1, transformation. cbn [lin yaw pitch roll vx vy vz]. rewrite E.
    now rewrite <- rot_z_xyz. }
  exists PI. rewrite E. split; [reflexivity|]. split.
  - intros H. apply (f_equal (fun m => vz (r2 m))) in H. unfold rot_z, rot_x in H. cbn [r2 vz] in H. rewrite cos_PI in H. lra.
  - exists (mkV 0 0 1). rewrite C93_camera_2. cbn [vx vy vz]. intros H. apply (f_equal vz) in H.
    rewrite <- rot_z_xyz in H. unfold rot_z, rot_x, mvmul, dot, vadd, v0 in H. cbn [r0 r1 r2 vx vy vz] in H.
    rewrite cos_PI, sin_PI in H. lra.
Qed.
Print Assumptions C93_camera_2_x_refuted.

(** ** C94: the vector of a pose *)

(** The vector has the position, and angles that stand for the orientation. *)
Theorem C94_vector :
  forall f b, extracts f -> unit_quat (b_orientation b) ->
  let v := pose_vector f b in
  mkV (v 0%nat) (v 1%nat) (v 2%nat) = b_position b /\ rot_xyz (v 3%nat) (v 4%nat) (v 5%nat) = matrix_of b.
Proof.
  intros f b E U. cbn. split; [now destruct (b_position b)|]. apply E; [now apply rotation_orthogonal|now apply rotation_det].
Qed.
Print Assumptions C94_vector.

Lemma entries x y z : rot_xyz x y z =
  mkM3 (mkV (cos y * cos z) (- (cos y * sin z)) (sin y))
       (mkV (cos x * sin z + sin x * sin y * cos z) (cos x * cos z - sin x * sin y * sin z) (- (sin x * cos y)))
       (mkV (sin x * sin z - cos x * sin y * cos z) (sin x * cos z + cos x * sin y * sin z) (cos x * cos y)).
Proof.
  unfold rot_xyz, rot_x, rot_y, rot_z, mmul, mvmul, mT, dot. cbn [r0 r1 r2 vx vy vz].
  apply mat_eq; apply vec_eq; cbn [r0 r1 r2 vx vy vz]; ring.
Qed.

(** Away from a null roll the angles are the ones of the rotation: with a roll in (0, pi) and a
    pitch in (-pi/2, pi/2) the first angle is the roll, and the others have the same sines
    and cosines as the pitch and the yaw. *)
Theorem C94_vector_exact :
  forall f b x y z, extracts f -> first_positive f -> unit_quat (b_orientation b) ->
  0 < x < PI -> - (PI / 2) < y < PI / 2 -> matrix_of b = rot_xyz x y z ->
  let v := pose_vector f b in
  v 3%nat = x /\ sin (v 4%nat) = sin y /\ cos (v 4%nat) = cos y /\ sin (v 5%nat) = sin z /\ cos (v 5%nat) = cos z.
Proof.
  intros f b x y z E F U X Y M v. destruct (C94_vector f b E U) as [_ H]. fold v in H. rewrite M, !entries in H.
  assert (P : 0 <= v 3%nat <= PI) by (apply F; [now apply rotation_orthogonal|now apply rotation_det]).
  set (a := v 3%nat) in *. set (p := v 4%nat) in *. set (q := v 5%nat) in *. clearbody a p q.
  assert (Sx : 0 < sin x) by (apply sin_gt_0; lra). assert (Cy : 0 < cos y) by (apply cos_gt_0; lra).
  assert (Sa : 0 <= sin a) by (apply sin_ge_0; lra).
  pose proof (f_equal (fun m => vz (r0 m)) H) as E1. pose proof (f_equal (fun m => vz (r1 m)) H) as E2. pose proof (f_equal (fun m => vz (r2 m)) H) as E3.
  pose proof (f_equal (fun m => vx (r0 m)) H) as E4. pose proof (f_equal (fun m => vy (r0 m)) H) as E5. cbn [r0 r1 r2 vx vy vz] in *. clear H.
  pose proof (cs1 p). pose proof (cs1 y).
  assert (T : cos p * cos p = cos y * cos y) by (rewrite E1 in *; lra).
  assert (Cp : 0 < sin a * cos p) by nra. assert (Cp' : 0 < cos p) by nra.
  assert (Ec : cos p = cos y) by nra. rewrite Ec in *.
  assert (Ea : cos a = cos x) by (apply Rmult_eq_reg_r with (cos y); lra).
  assert (Eq : cos q = cos z) by (apply Rmult_eq_reg_l with (cos y); lra).
  assert (Er : sin q = sin z) by (apply Rmult_eq_reg_l with (cos y); lra).
  repeat split; auto. apply cos_inj; lra.
Qed.
Print Assumptions C94_vector_exact.

(** the pose at the origin, turned around x *)
Definition tilted (a : R) : pose_base := mkPB v0 (angle_axis a (mkV 1 0 0)).
Lemma tilted_ok a : unit_quat (b_orientation (tilted a)) /\ matrix_of (tilted a) = rot_x a.
Proof. apply axis_x. Qed.
Lemma rot_x_xyz a : rot_x a = rot_xyz a 0 0.
Proof. rewrite entries. unfold rot_x. rewrite cos_0, sin_0. apply mat_eq; apply vec_eq; cbn [r0 r1 r2 vx vy vz]; ring. Qed.
Lemma tilted_error e : 0 <= e <= PI / 2 -> rotation_error (tilted (- e)) (tilted e) = 2 * e / euler_to_radian.
Proof.
  intros H. destruct (tilted_ok e) as [U _], (tilted_ok (- e)) as [V _]. unfold rotation_error. f_equal.
  rewrite angular_acos by auto. f_equal. unfold qdot, tilted, angle_axis. cbn.
  replace (- e / 2) with (- (e / 2)) by field. rewrite cos_neg, sin_neg.
  replace (cos (e / 2) * cos (e / 2) + - sin (e / 2) * 1 * (sin (e / 2) * 1) + - sin (e / 2) * 0 * (sin (e / 2) * 0) + - sin (e / 2) * 0 * (sin (e / 2) * 0))
    with (cos e) by (replace e with (2 * (e / 2)) at 1 by field; rewrite cos_2a; ring).
  pose proof PI_RGT_0. rewrite Rabs_pos_eq by (apply cos_ge_0; lra). rewrite acos_cos; lra.
Qed.
Lemma tilted_first f e : extracts f -> first_positive f -> 0 < e < PI / 2 ->
  pose_vector f (tilted (- e)) 3%nat = PI - e /\ pose_vector f (tilted e) 3%nat = e.
Proof.
  intros E F H. pose proof PI_RGT_0. destruct (tilted_ok e) as [U A], (tilted_ok (- e)) as [V B]. split.
  - destruct (C94_vector f _ E V) as [_ M]. rewrite B in M. set (v := pose_vector f (tilted (- e))) in *.
    assert (P : 0 <= v 3%nat <= PI) by (apply F; [now apply rotation_orthogonal|now apply rotation_det]).
    rewrite entries in M. unfold rot_x in M. rewrite cos_neg, sin_neg in M.
    pose proof (f_equal (fun m => vz (r0 m)) M) as E1. pose proof (f_equal (fun m => vz (r1 m)) M) as E2. pose proof (f_equal (fun m => vz (r2 m)) M) as E3.
    cbn [r0 r1 r2 vx vy vz] in *. clear M. set (a := v 3%nat) in *. set (p := v 4%nat) in *. clearbody a p.
    assert (Sa : 0 <= sin a) by (apply sin_ge_0; lra). assert (Se : 0 < sin e) by (apply sin_gt_0; lra).
    pose proof (cs1 p). rewrite E1 in *. assert (Sq : (cos p - 1) * (cos p + 1) = 0) by nra.
    apply Rmult_integral in Sq. assert (C : cos p = -1) by (destruct Sq; [nra|lra]).
    rewrite C in *. apply cos_inj; try lra. rewrite Rtrigo_facts.cos_pi_minus. lra.
  - refine (proj1 (C94_vector_exact f (tilted e) e 0 0 E F U _ _ _)); try lra. rewrite A. apply rot_x_xyz.
Qed.

Lemma small_tilt bound : 0 < bound -> exists e, 0 < e < PI / 2 /\ e <= 1 / 10 /\ rotation_error (tilted (- e)) (tilted e) < bound.
Proof.
  intros Hb. pose proof PI_RGT_0. pose proof PI2_3_2 as P3.
  set (e := Rmin (1 / 10) (bound * PI / 720)).
  assert (He : 0 < e).
  { apply Rmin_glb_lt; [lra|]. apply Rmult_lt_0_compat; [apply Rmult_lt_0_compat; lra|lra]. }
  assert (E1 : e <= 1 / 10) by apply Rmin_l. assert (E2 : e <= bound * PI / 720) by apply Rmin_r. clearbody e.
  exists e. split; [lra|]. split; [lra|]. rewrite tilted_error, degrees by lra.
  apply Rmult_lt_reg_r with PI; [lra|]. unfold Rdiv. rewrite Rmult_assoc, Rinv_l by lra. lra.
Qed.
(** "Close poses have close vectors" is false at a null roll, whatever the extraction with the
    documented range: the first angle jumps from 0 to pi between poses that are as close as
    wanted. *)
Theorem C94_close_vectors_refuted :
  forall f, extracts f -> first_positive f -> forall bound, 0 < bound ->
  exists a b, unit_quat (b_orientation a) /\ unit_quat (b_orientation b) /\
  position_error a b = 0 /\ rotation_error a b < bound /\ 2 < Rabs (pose_vector f a 3%nat - pose_vector f b 3%nat).
Proof.
  intros f E F bound Hb. destruct (small_tilt bound Hb) as (e & He & E1 & Er). pose proof PI2_3_2 as P3.
  exists (tilted (- e)), (tilted e). split; [apply tilted_ok|]. split; [apply tilted_ok|]. split.
  - unfold position_error. cbn. unfold norm. replace (sqn (vsub v0 v0)) with 0 by (v3unfold; ring). apply sqrt_0.
  - split; [exact Er|]. destruct (tilted_first f e E F He) as [-> ->]. rewrite Rabs_pos_eq; lra.
Qed.
Print Assumptions C94_close_vectors_refuted.

Lemma rsum_repeat {A} (g : A -> R) x n : rsum g (repeat x n) = INR n * g x.
Proof. induction n as [|n IH]; [cbn; ring|]. rewrite S_INR. cbn [repeat]. rewrite rsum_cons, IH. ring. Qed.
Lemma poses_split sample (A B : vec6) n k :
  (forall i, (k <= i < k + n)%nat -> sample i = Some A) -> poses sample (seq k n) = repeat A n.
Proof.
  revert k. induction n as [|n IH]; intros k H; [reflexivity|]. cbn. unfold poses in *. cbn. rewrite H by lia.
  cbn. f_equal. apply IH. intros i Hi. apply H. lia.
Qed.
(** "The variance of close poses is small" is false at a null roll: when half of the variations
    fall on each side of it, the standard deviation of the roll is more than 1 radian although
    all the poses agree up to an angle as small as wanted. *)
Theorem C94_small_variance_refuted :
  forall f, extracts f -> first_positive f -> forall bound half, 0 < bound -> (1 <= half)%nat ->
  exists variation : nat -> pose_base,
  (forall i, unit_quat (b_orientation (variation i))) /\
  (forall i j, position_error (variation i) (variation j) = 0 /\ rotation_error (variation i) (variation j) < bound) /\
  exists m, pose_variance (fun i => Some (pose_vector f (variation i))) (fun _ => true) (half + half) (seq 0 (half + half)) true = Some m /\
  1 < m 3%nat 3%nat.
Proof.
  intros f E F bound half Hb Hh. destruct (small_tilt bound Hb) as (e & He & E1 & Er). pose proof PI2_3_2 as P3.
  set (A := tilted (- e)). set (B := tilted e). exists (fun i => if Nat.ltb i half then A else B).
  destruct (tilted_ok (- e)) as [Ua _]. destruct (tilted_ok e) as [Ub _].
  assert (U : forall i, unit_quat (b_orientation (if Nat.ltb i half then A else B))) by (intros i; now destruct (Nat.ltb i half)).
  split; [exact U|]. split.
  { intros i j. split.
    - unfold position_error. destruct (Nat.ltb i half), (Nat.ltb j half); cbn; unfold norm; replace (sqn (vsub v0 v0)) with 0 by (v3unfold; ring); apply sqrt_0.
    - assert (Z : forall x, unit_quat (b_orientation x) -> rotation_error x x < bound).
      { intros x Ux. replace (rotation_error x x) with 0; [lra|]. symmetry. now apply (C92_rotation_distance x x x Ux Ux Ux). }
      destruct (Nat.ltb i half), (Nat.ltb j half); auto.
      rewrite (proj1 (C92_rotation_distance B A A Ub Ua Ua)). exact Er. }
  set (sample := fun i => Some (pose_vector f (if Nat.ltb i half then A else B))).
  set (a := pose_vector f A). set (b := pose_vector f B).
  assert (P : poses sample (seq 0 (half + half)) = repeat a half ++ repeat b half).
  { rewrite seq_app. unfold poses. rewrite flat_map_app. f_equal.
    - apply (poses_split sample a a). intros i Hi. unfold sample. destruct (Nat.ltb_spec i half); [reflexivity|lia].
    - apply (poses_split sample b b). intros i Hi. unfold sample. destruct (Nat.ltb_spec i half); [lia|reflexivity]. }
  assert (L : length (poses sample (seq 0 (half + half))) = (half + half)%nat) by (rewrite P, app_length, !repeat_length; reflexivity).
  destruct (pose_variance sample (fun _ => true) (half + half) (seq 0 (half + half)) true) as [m|] eqn:V.
  2:{ exfalso. revert V. apply PoseVarianceProps.C24_succeeds; try lia. rewrite L. apply Nat.div_le_upper_bound; lia. }
  exists m. split; [reflexivity|].
  destruct (PoseVarianceProps.C24_variance _ _ _ _ _ _ V) as [[(K & _)|(_ & _ & M)] _]; [lia|].
  rewrite M. cbn [Nat.eqb]. unfold PoseVarianceProps.sample_covariance, PoseVarianceProps.mean. rewrite L, P, !rsum_app, !rsum_repeat.
  destruct (tilted_first f e E F He) as [Ea Eb]. fold A in Ea. fold B in Eb. fold a in Ea. fold b in Eb. rewrite Ea, Eb.
  assert (N : INR half > 0) by (apply lt_0_INR; lia).
  rewrite plus_INR.
  assert (N1 : 1 <= INR half) by (apply (le_INR 1); lia). set (n := INR half) in *. clearbody n.
  assert (Me : / (n + n) * (n * (PI - e) + n * e) = PI / 2) by (field; lra). rewrite Me.
  assert (G : 1 < / (n + n - 1) * (n * ((PI - e - PI / 2) * (PI - e - PI / 2)) + n * ((e - PI / 2) * (e - PI / 2)))).
  { apply Rmult_lt_reg_l with (n + n - 1); [lra|]. rewrite <- Rmult_assoc, Rinv_r, Rmult_1_l by lra.
    assert (D : 1 < (PI / 2 - e) * (PI / 2 - e)) by nra.
    replace (n * ((PI - e - PI / 2) * (PI - e - PI / 2)) + n * ((e - PI / 2) * (e - PI / 2))) with ((n + n) * ((PI / 2 - e) * (PI / 2 - e))) by field. nra. }
  lra.
Qed.
Print Assumptions C94_small_variance_refuted.

(** ** The extractions exist *)

(** the angle of a point of the unit circle, in (-pi, pi] *)
Definition polar (c s : R) : R := if Rlt_dec s 0 then - acos c else acos c.
Lemma polar_ok c s : c * c + s * s = 1 -> cos (polar c s) = c /\ sin (polar c s) = s /\ - PI <= polar c s <= PI /\ (s < 0 -> polar c s <= 0) /\ (0 <= s -> 0 <= polar c s).
Proof.
  intros H. assert (C : -1 <= c <= 1) by nra. pose proof (acos_bound c). pose proof PI_RGT_0.
  assert (Q : 1 - c² = s * s) by (unfold Rsqr; lra).
  unfold polar. destruct (Rlt_dec s 0).
  - rewrite cos_neg, sin_neg, cos_acos, sin_acos, Q by lra. replace (s * s) with ((- s)²) by (unfold Rsqr; ring).
    rewrite sqrt_Rsqr by lra. repeat split; lra.
  - rewrite cos_acos, sin_acos, Q by lra. change (s * s) with (s²). rewrite sqrt_Rsqr by lra. repeat split; lra.
Qed.
Definition angles (m : mat) : vec :=
  let k := sqrt (1 - vz (r0 m) * vz (r0 m)) in
  let y := polar k (vz (r0 m)) in
  if Req_EM_T k 0 then mkV (polar (vy (r1 m)) (vy (r2 m))) y 0
  else mkV (polar (vz (r2 m) / k) (- vz (r1 m) / k)) y (polar (vx (r0 m) / k) (- vy (r0 m) / k)).
Definition angles_first (m : mat) : vec :=
  let a := angles m in if Rlt_dec (vx a) 0 then mkV (vx a + PI) (PI - vy a) (vz a + PI) else a.
Lemma squares3 x y z : x * x + y * y + z * z = 0 -> x = 0 /\ y = 0 /\ z = 0.
Proof. intros H. repeat split; nra. Qed.
Lemma row_cross a b c d e f g h i :
  a * a + b * b + c * c = 1 -> d * d + e * e + f * f = 1 -> g * g + h * h + i * i = 1 ->
  a * g + b * h + c * i = 0 ->
  a * (e * i - f * h) + b * (f * g - d * i) + c * (d * h - e * g) = 1 ->
  d = h * c - b * i /\ e = a * i - g * c /\ f = g * b - a * h.
Proof.
  intros A1 A2 A3 B2 D.
  assert (Z : (d - (h * c - b * i)) * (d - (h * c - b * i)) + (e - (a * i - g * c)) * (e - (a * i - g * c)) + (f - (g * b - a * h)) * (f - (g * b - a * h)) = 0).
  { transitivity ((d * d + e * e + f * f) - 2 * (a * (e * i - f * h) + b * (f * g - d * i) + c * (d * h - e * g))
      + ((a * a + b * b + c * c) * (g * g + h * h + i * i) - (a * g + b * h + c * i) * (a * g + b * h + c * i))); [ring|].
    rewrite A1, A2, A3, B2, D. ring. }
  apply squares3 in Z. lra.
Qed.
Lemma angles_range m : orthogonal m -> det m = 1 -> - PI <= vx (angles m) <= PI /\ rot_xyz (vx (angles m)) (vy (angles m)) (vz (angles m)) = m.
Proof.
  destruct m as [[a b c] [d e f] [g h i]]. intros [O1 O2] D.
  assert (A1 : a * a + b * b + c * c = 1) by (pose proof (f_equal (fun m => vx (r0 m)) O1) as T; revert T; clear; cbv [mmul mvmul mT dot mid]; cbn [r0 r1 r2 vx vy vz]; lra).
  assert (A2 : d * d + e * e + f * f = 1) by (pose proof (f_equal (fun m => vy (r1 m)) O1) as T; revert T; clear; cbv [mmul mvmul mT dot mid]; cbn [r0 r1 r2 vx vy vz]; lra).
  assert (A3 : g * g + h * h + i * i = 1) by (pose proof (f_equal (fun m => vz (r2 m)) O1) as T; revert T; clear; cbv [mmul mvmul mT dot mid]; cbn [r0 r1 r2 vx vy vz]; lra).
  assert (B1 : a * d + b * e + c * f = 0) by (pose proof (f_equal (fun m => vy (r0 m)) O1) as T; revert T; clear; cbv [mmul mvmul mT dot mid]; cbn [r0 r1 r2 vx vy vz]; lra).
  assert (B2 : a * g + b * h + c * i = 0) by (pose proof (f_equal (fun m => vz (r0 m)) O1) as T; revert T; clear; cbv [mmul mvmul mT dot mid]; cbn [r0 r1 r2 vx vy vz]; lra).
  assert (C3 : c * c + f * f + i * i = 1) by (pose proof (f_equal (fun m => vz (r2 m)) O2) as T; revert T; clear; cbv [mmul mvmul mT dot mid]; cbn [r0 r1 r2 vx vy vz]; lra).
  assert (C2 : b * b + e * e + h * h = 1) by (pose proof (f_equal (fun m => vy (r1 m)) O2) as T; revert T; clear; cbv [mmul mvmul mT dot mid]; cbn [r0 r1 r2 vx vy vz]; lra).
  assert (Dt : a * (e * i - f * h) + b * (f * g - d * i) + c * (d * h - e * g) = 1).
  { revert D. clear. cbv [det dot cross]. cbn [r0 r1 r2 vx vy vz]. lra. }
  clear O1 O2 D.
  destruct (row_cross a b c d e f g h i A1 A2 A3 B2 Dt) as (Xd & Xe & Xf).
  destruct (row_cross d e f g h i a b c) as (Xg & Xh & Xi); try lra.
  unfold angles. cbn [r0 r1 r2 vx vy vz]. set (k := sqrt (1 - c * c)).
  assert (K : k * k = 1 - c * c) by (apply sqrt_sqrt; nra).
  assert (Kp : 0 <= k) by apply sqrt_pos. clearbody k.
  destruct (polar_ok k c ltac:(lra)) as (Cy & Sy & _).
  destruct (Req_EM_T k 0) as [Z|Z]; cbn [vx vy vz].
  - subst k. assert (a = 0) by nra. assert (b = 0) by nra. assert (f = 0) by nra. assert (i = 0) by nra. subst a b f i.
    destruct (polar_ok e h) as (Cx & Sx & Rx & _); [nra|]. split; [exact Rx|].
    rewrite entries, Cy, Sy, Cx, Sx, cos_0, sin_0. apply mat_eq; apply vec_eq; cbn [r0 r1 r2 vx vy vz]; lra.
  - assert (Kn : k * k <> 0) by nra.
    assert (Px : i / k * (i / k) + - f / k * (- f / k) = 1).
    { transitivity ((i * i + f * f) / (k * k)); [field; auto|]. rewrite K in *. replace (i * i + f * f) with (1 - c * c) by lra. field. auto. }
    assert (Pz : a / k * (a / k) + - b / k * (- b / k) = 1).
    { transitivity ((a * a + b * b) / (k * k)); [field; auto|]. rewrite K in *. replace (a * a + b * b) with (1 - c * c) by lra. field. auto. }
    destruct (polar_ok _ _ Px) as (Cx & Sx & Rx & _). destruct (polar_ok _ _ Pz) as (Cz & Sz & _). split; [exact Rx|].
    rewrite entries, Cy, Sy, Cx, Sx, Cz, Sz.
    assert (Hd : (- b * i - f * c * a) = (k * k) * d).
    { transitivity (d - c * (h + a * f)); [replace (- b * i) with (d - h * c) by lra; ring|].
      replace (h + a * f) with (d * c) by lra. rewrite K. ring. }
    assert (He : (a * i - f * c * b) = (k * k) * e).
    { transitivity (e + c * (g - b * f)); [replace (a * i) with (e + g * c) by lra; ring|].
      replace (g - b * f) with (- (e * c)) by lra. rewrite K. ring. }
    assert (Hg : (f * b - i * c * a) = (k * k) * g).
    { transitivity (g + c * (e - a * i)); [replace (f * b) with (g + e * c) by lra; ring|].
      replace (e - a * i) with (- (g * c)) by lra. rewrite K. ring. }
    assert (Hh : (- f * a - i * c * b) = (k * k) * h).
    { transitivity (h - c * (d + b * i)); [replace (- f * a) with (h - d * c) by lra; ring|].
      replace (d + b * i) with (h * c) by lra. rewrite K. ring. }
    apply mat_eq; apply vec_eq; cbn [r0 r1 r2 vx vy vz]; try (field; auto; fail); try lra.
    + transitivity ((- b * i - f * c * a) / (k * k)); [field; auto|]. rewrite Hd. field. auto.
    + transitivity ((a * i - f * c * b) / (k * k)); [field; auto|]. rewrite He. field. auto.
    + transitivity ((f * b - i * c * a) / (k * k)); [field; auto|]. rewrite Hg. field. auto.
    + transitivity ((- f * a - i * c * b) / (k * k)); [field; auto|]. rewrite Hh. field. auto.
Qed.

(** Extractions as expected exist, with and without the range of the first angle. *)
Theorem C93_extraction_exists : extracts angles.
Proof. intros m O D. now apply angles_range. Qed.
Print Assumptions C93_extraction_exists.
Theorem C94_extraction_exists : extracts angles_first /\ first_positive angles_first.
Proof.
  split; intros m O D; destruct (angles_range m O D) as [Rg E]; unfold angles_first; cbn zeta; destruct (Rlt_dec (vx (angles m)) 0); cbn [vx vy vz]; try lra; try exact E.
  transitivity (rot_xyz (vx (angles m)) (vy (angles m)) (vz (angles m))); [|exact E]. clear E. rewrite !entries, !neg_cos, !neg_sin, Rtrigo_facts.cos_pi_minus, Rtrigo_facts.sin_pi_minus.
  apply mat_eq; apply vec_eq; cbn [r0 r1 r2 vx vy vz]; ring.
Qed.
Print Assumptions C94_extraction_exists.

(** Example: a pose set, then moved twice. *)
Example C91_example :
  let motion := (mkV 1 2 3, mkQuat 0 1 0 0) in
  let b := fold_left pose_step [UpdatePose (mkV 5 5 5) (mkQuat 1 0 0 0); SetPose (mkV 10 0 0) (mkQuat 3 0 0 4); UpdatePose (fst motion) (snd motion); UpdatePose (fst motion) (snd motion)] origin in
  Forall good_op [UpdatePose (mkV 5 5 5) (mkQuat 1 0 0 0); SetPose (mkV 10 0 0) (mkQuat 3 0 0 4); UpdatePose (fst motion) (snd motion); UpdatePose (fst motion) (snd motion)] /\
  b_position b = mkV 12 4 6 /\ matrix_of b = matrix_of (set_pose (mkV 10 0 0) (mkQuat 3 0 0 4)).
Proof.
  cbn zeta. split; [|split].
  - repeat constructor; unfold good_op, unit_quat, null_quat; cbn; lra.
  - cbn. unfold vadd. cbn. apply vec_eq; cbn; ring.
  - destruct (C91_history [UpdatePose (mkV 5 5 5) (mkQuat 1 0 0 0)] (mkV 10 0 0) (mkQuat 3 0 0 4)
      [(mkV 1 2 3, mkQuat 0 1 0 0); (mkV 1 2 3, mkQuat 0 1 0 0)] origin) as [_ M].
    + unfold null_quat. cbn. lra.
    + repeat constructor; unfold unit_quat; cbn; lra.
    + cbn [map app fst snd fold_left] in *. rewrite M, <- mmul_assoc.
      replace (mmul (rotation_matrix (mkQuat 0 1 0 0)) (rotation_matrix (mkQuat 0 1 0 0))) with mid; [apply mmul_id_r|].
      unfold rotation_matrix. cbn [q_w q_x q_y q_z]. unfold mmul, mvmul, mT, dot, mid. cbn [r0 r1 r2 vx vy vz].
      apply mat_eq; apply vec_eq; cbn [r0 r1 r2 vx vy vz]; ring.
Qed.
(** Example: a quarter of a turn around z is 90 degrees away from the origin. *)
Example C92_example :
  unit_quat (b_orientation origin) /\ rotation_error origin (mkPB v0 (angle_axis (PI / 2) (mkV 0 0 1))) = 90.
Proof.
  destruct (C91_start) as (_ & U & _). split; [exact U|]. pose proof PI_RGT_0.
  destruct (axis_z (PI / 2)) as [V _].
  rewrite rotation_error_value by (cbn [b_orientation]; auto). unfold qdot, origin, angle_axis. cbn [b_orientation q_w q_x q_y q_z].
  replace (1 * cos (PI / 2 / 2) + 0 * (sin (PI / 2 / 2) * vx (mkV 0 0 1)) + 0 * (sin (PI / 2 / 2) * vy (mkV 0 0 1)) + 0 * (sin (PI / 2 / 2) * vz (mkV 0 0 1)))
    with (cos (PI / 2 / 2)) by ring.
  rewrite Rabs_pos_eq by (apply cos_ge_0; lra). rewrite acos_cos by lra. field. lra.
Qed.
