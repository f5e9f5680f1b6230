(** Poses stand for rigid motions, and their errors are distances. *)
From Verif Require Import PoseSpec GeometryProps PlaneSegmentModel Vec3.
From Coq Require Import Lra Psatz List.
Import ListNotations.
Local Open Scope R_scope.

(** ** Quaternions *)
Definition sqnorm (q : quat) : R := q_w q * q_w q + q_x q * q_x q + q_y q * q_y q + q_z q * q_z q.
Definition qdot (a b : quat) : R := q_w a * q_w b + q_x a * q_x b + q_y a * q_y b + q_z a * q_z b.
Lemma sqnorm_qmul a b : sqnorm (qmul a b) = sqnorm a * sqnorm b.
Proof. destruct a, b. unfold sqnorm, qmul. cbn. ring. Qed.
Lemma unit_qmul a b : unit_quat a -> unit_quat b -> unit_quat (qmul a b).
Proof. intros A B. change (sqnorm (qmul a b) = 1). change (sqnorm a = 1) in A. change (sqnorm b = 1) in B. rewrite sqnorm_qmul, A, B. ring. Qed.
Lemma unit_conjugate a : unit_quat a -> unit_quat (conjugate a).
Proof. destruct a. unfold unit_quat, conjugate. cbn. intros H. rewrite <- H. ring. Qed.
Lemma sqnorm_nonneg q : 0 <= sqnorm q.
Proof. unfold sqnorm. nra. Qed.
Lemma sqnorm_null q : sqnorm q = 0 -> null_quat q.
Proof. unfold sqnorm, null_quat. intros H. repeat split; nra. Qed.
Lemma unit_normalized q : ~ null_quat q -> unit_quat (normalized q).
Proof.
  intros N. assert (P : 0 < sqnorm q).
  { destruct (Rle_lt_or_eq_dec _ _ (sqnorm_nonneg q)) as [H|H]; auto. exfalso. apply N, sqnorm_null. auto. }
  unfold normalized. fold (sqnorm q). destruct (Rlt_dec 0 (sqnorm q)) as [_|H]; [|contradiction].
  unfold unit_quat, qnorm. cbn [q_w q_x q_y q_z]. fold (sqnorm q). assert (S := sqrt_sqrt (sqnorm q) (Rlt_le _ _ P)).
  assert (Z : sqrt (sqnorm q) <> 0) by (intros E; rewrite E in S; lra).
  set (s := sqrt (sqnorm q)) in *. clearbody s.
  transitivity (sqnorm q / (s * s)); [unfold sqnorm; field; auto|]. rewrite S. field. lra.
Qed.
Lemma normalized_unit_quat q : unit_quat q -> normalized q = q.
Proof.
  intros U. change (sqnorm q = 1) in U. unfold normalized. fold (sqnorm q). rewrite U.
  destruct (Rlt_dec 0 1); [|lra]. unfold qnorm. fold (sqnorm q). rewrite U, sqrt_1. destruct q; cbn. f_equal; field.
Qed.
(** the matrix of a unit quaternion, without the constant *)
Definition hom (q : quat) : mat :=
  let w := q_w q in let x := q_x q in let y := q_y q in let z := q_z q in
  mkM3 (mkV (w * w + x * x - y * y - z * z) (2 * (x * y - w * z)) (2 * (x * z + w * y)))
       (mkV (2 * (x * y + w * z)) (w * w - x * x + y * y - z * z) (2 * (y * z - w * x)))
       (mkV (2 * (x * z - w * y)) (2 * (y * z + w * x)) (w * w - x * x - y * y + z * z)).
Lemma hom_ok q : unit_quat q -> rotation_matrix q = hom q.
Proof.
  destruct q as [w x y z]. unfold unit_quat, rotation_matrix, hom. cbn. intros U.
  apply mat_eq; apply vec_eq; cbn; try ring; rewrite <- U; ring.
Qed.
Lemma hom_mul a b : hom (qmul a b) = mmul (hom a) (hom b).
Proof. destruct a, b. unfold hom, qmul. cbn. apply mat_eq; apply vec_eq; cbv [mmul mvmul mT dot]; cbn [vx vy vz r0 r1 r2]; ring. Qed.
Lemma rotation_mul a b : unit_quat a -> unit_quat b ->
  rotation_matrix (qmul a b) = mmul (rotation_matrix a) (rotation_matrix b).
Proof. intros A B. rewrite !hom_ok by auto using unit_qmul. apply hom_mul. Qed.
Lemma rotation_conjugate a : rotation_matrix (conjugate a) = mT (rotation_matrix a).
Proof. destruct a. unfold rotation_matrix, conjugate, mT. cbn. apply mat_eq; apply vec_eq; cbn; ring. Qed.
Lemma rotation_det q : unit_quat q -> det (rotation_matrix q) = 1.
Proof.
  intros U. rewrite hom_ok by auto. change (sqnorm q = 1) in U.
  transitivity (sqnorm q * sqnorm q * sqnorm q).
  - destruct q. unfold hom, sqnorm. cbn. cbv [det dot cross]. cbn [vx vy vz r0 r1 r2]. ring.
  - rewrite U. ring.
Qed.

(** ** C91: orientation and position after any history *)

(** Whatever was done to a pose, its orientation stays a unit quaternion, so that its matrix
    is a rotation. *)
Theorem C91_orientation_unit :
  forall ops b, unit_quat (b_orientation b) -> Forall good_op ops ->
  unit_quat (b_orientation (fold_left pose_step ops b)) /\
  orthogonal (matrix_of (fold_left pose_step ops b)) /\ det (matrix_of (fold_left pose_step ops b)) = 1.
Proof.
  intros ops b U G. cut (unit_quat (b_orientation (fold_left pose_step ops b))).
  { intros H. split; [exact H|]. split; [now apply rotation_orthogonal|now apply rotation_det]. }
  revert b U. induction G as [|o ops Ho _ IH]; intros b U; [exact U|]. cbn [fold_left]. apply IH.
  destruct o as [p q|p q]; cbn in *; [now apply unit_normalized|now apply unit_qmul].
Qed.
Print Assumptions C91_orientation_unit.

(** The start satisfies the hypothesis. *)
Theorem C91_start :
  b_position origin = v0 /\ unit_quat (b_orientation origin) /\ matrix_of origin = mid /\
  forall p q, ~ null_quat q -> unit_quat (b_orientation (set_pose p q)) /\ b_position (set_pose p q) = p /\
    exists k, 0 < k /\ b_orientation (set_pose p q) = mkQuat (k * q_w q) (k * q_x q) (k * q_y q) (k * q_z q).
Proof.
  repeat split; try (unfold unit_quat; cbn; ring).
  - unfold matrix_of, origin, rotation_matrix, mid. cbn. apply mat_eq; apply vec_eq; cbn; ring.
  - now apply unit_normalized.
  - assert (P : 0 < sqnorm q).
    { destruct (Rle_lt_or_eq_dec _ _ (sqnorm_nonneg q)) as [Hq|Hq]; auto. exfalso. apply H, sqnorm_null. auto. }
    exists (/ qnorm q). split; [apply Rinv_0_lt_compat, sqrt_lt_R0, P|].
    cbn. unfold normalized. fold (sqnorm q). destruct (Rlt_dec 0 (sqnorm q)); [|contradiction].
    f_equal; unfold Rdiv; apply Rmult_comm.
Qed.
Print Assumptions C91_start.

(** The last set position and orientation, then the motions added since: the positions are
    added, the rotations are multiplied on the right, in the order of the calls. *)
Theorem C91_history :
  forall ops p q motions b, ~ null_quat q -> Forall (fun m => unit_quat (snd m)) motions ->
  let after := fold_left pose_step (ops ++ SetPose p q :: map (fun m => UpdatePose (fst m) (snd m)) motions) b in
  b_position after = fold_left vadd (map fst motions) p /\
  matrix_of after = fold_left mmul (map (fun m => rotation_matrix (snd m)) motions) (matrix_of (set_pose p q)).
Proof.
  intros ops p q motions b N F. cbn zeta. rewrite fold_left_app. cbn [fold_left pose_step].
  change p with (b_position (set_pose p q)) at 2.
  assert (U : unit_quat (b_orientation (set_pose p q))) by now apply unit_normalized.
  revert U. generalize (set_pose p q). clear - F. induction F as [|[v u] l Hu _ IH]; intros s U; [split; reflexivity|].
  cbn [map fst snd fold_left pose_step]. cbn in Hu.
  destruct (IH (update_pose s v u)) as [A B]; [now apply unit_qmul|]. rewrite A, B. split; [reflexivity|].
  f_equal. unfold matrix_of. cbn. now apply rotation_mul.
Qed.
Print Assumptions C91_history.

(** A pose is kept as the quaternion it was given only up to scale: an update is not
    normalised, the norms are multiplied. *)
Theorem C91_norms :
  forall motions b,
  sqnorm (b_orientation (fold_left pose_step (map (fun m => UpdatePose (fst m) (snd m)) motions) b)) =
  fold_left Rmult (map (fun m => sqnorm (snd m)) motions) (sqnorm (b_orientation b)).
Proof.
  induction motions as [|[v u] l IH]; intros b; [reflexivity|]. cbn. rewrite IH. cbn. now rewrite sqnorm_qmul.
Qed.
Print Assumptions C91_norms.
(** "Every update keeps a rotation" is false when the orientation is not a unit one. *)
Theorem C91_any_update_refuted :
  exists p q, ~ null_quat q /\ ~ unit_quat (b_orientation (update_pose origin p q)) /\
  ~ orthogonal (matrix_of (update_pose origin p q)).
Proof.
  exists v0, (mkQuat 1 1 0 0). split; [unfold null_quat; cbn; lra|]. split; [unfold unit_quat; cbn; lra|].
  intros O. assert (E : matrix_of (update_pose origin v0 (mkQuat 1 1 0 0)) = mkM3 (mkV 1 0 0) (mkV 0 (-1) (-2)) (mkV 0 2 (-1))).
  { unfold matrix_of, update_pose, origin, rotation_matrix, qmul. cbn [b_orientation q_w q_x q_y q_z].
    apply mat_eq; apply vec_eq; cbn [r0 r1 r2 vx vy vz]; ring. }
  rewrite E in O. destruct O as [H _]. apply (f_equal (fun m => vy (r1 m))) in H. revert H. clear.
  unfold mmul, mvmul, mT, dot, mid. cbn [r0 r1 r2 vx vy vz]. lra.
Qed.
Print Assumptions C91_any_update_refuted.
(** "A set orientation is a unit quaternion" is false of the null one, which is stored. *)
Theorem C91_null_orientation_refuted :
  exists p q, ~ unit_quat (b_orientation (set_pose p q)) /\ matrix_of (set_pose p q) = mid.
Proof.
  exists v0, (mkQuat 0 0 0 0). unfold set_pose, normalized, unit_quat, matrix_of. cbn.
  destruct (Rlt_dec 0 (0 * 0 + 0 * 0 + 0 * 0 + 0 * 0)); [lra|]. cbn. split; [lra|].
  unfold rotation_matrix, mid. cbn. apply mat_eq; apply vec_eq; cbn; ring.
Qed.
Print Assumptions C91_null_orientation_refuted.

(** ** C92: errors between poses *)
Lemma norm_triangle a b : norm (vadd a b) <= norm a + norm b.
Proof.
  apply Rsqr_incr_0; [|apply norm_nonneg|pose proof (norm_nonneg a); pose proof (norm_nonneg b); lra].
  unfold Rsqr. rewrite norm_sqr.
  assert (D : dot a b <= norm a * norm b).
  { apply Rsqr_incr_0_var; [|apply Rmult_le_pos; apply norm_nonneg]. unfold Rsqr.
    replace (norm a * norm b * (norm a * norm b)) with (norm a * norm a * (norm b * norm b)) by ring.
    rewrite !norm_sqr. apply cauchy. }
  replace (sqn (vadd a b)) with (sqn a + 2 * dot a b + sqn b) by (v3des; v3unfold; ring).
  rewrite <- (norm_sqr a), <- (norm_sqr b). nra.
Qed.
(** The position error is the distance of the positions. *)
Theorem C92_position_error :
  forall a b c,
  position_error a b * position_error a b =
    (vx (b_position a) - vx (b_position b)) * (vx (b_position a) - vx (b_position b)) +
    (vy (b_position a) - vy (b_position b)) * (vy (b_position a) - vy (b_position b)) +
    (vz (b_position a) - vz (b_position b)) * (vz (b_position a) - vz (b_position b)) /\
  0 <= position_error a b /\ position_error a b = position_error b a /\
  (position_error a b = 0 <-> b_position a = b_position b) /\
  position_error a c <= position_error a b + position_error b c.
Proof.
  intros [a qa] [b qb] [c qc]. unfold position_error. cbn. repeat split.
  - rewrite norm_sqr. v3des. v3unfold. ring.
  - apply norm_nonneg.
  - apply dist_sym.
  - intros H. apply norm_zero in H. v3des. unfold vsub, v0 in H. cbn in H. injection H as X Y Z. apply vec_eq; cbn; lra.
  - intros ->. unfold norm. replace (sqn (vsub b b)) with 0 by (v3des; v3unfold; ring). apply sqrt_0.
  - replace (vsub c a) with (vadd (vsub b a) (vsub c b)) by v3ring. apply norm_triangle.
Qed.
Print Assumptions C92_position_error.

Lemma qdot_bound a b : unit_quat a -> unit_quat b -> qdot a b * qdot a b <= 1.
Proof.
  intros A B. change (sqnorm a = 1) in A. change (sqnorm b = 1) in B.
  assert (S : sqnorm (qmul a (conjugate b)) = 1).
  { rewrite sqnorm_qmul, A. replace (sqnorm (conjugate b)) with (sqnorm b) by (destruct b; unfold sqnorm, conjugate; cbn; ring). rewrite B. ring. }
  unfold sqnorm in S. replace (qdot a b) with (q_w (qmul a (conjugate b))) by (destruct a, b; unfold qdot; cbn; ring). nra.
Qed.
Lemma angular_acos a b : unit_quat a -> unit_quat b -> angular_distance a b = 2 * acos (Rabs (qdot a b)).
Proof.
  intros A B. unfold angular_distance. f_equal.
  assert (U : unit_quat (qmul a (conjugate b))) by auto using unit_qmul, unit_conjugate.
  assert (D := qdot_bound a b A B).
  assert (W : q_w (qmul a (conjugate b)) = qdot a b) by (destruct a, b; unfold qdot; cbn; ring).
  unfold unit_quat in U. rewrite W in *. set (d := qmul a (conjugate b)) in *. clearbody d.
  assert (N : norm (mkV (q_x d) (q_y d) (q_z d)) = sqrt (1 - (Rabs (qdot a b))²)).
  { unfold norm. f_equal. rewrite <- Rsqr_abs. unfold Rsqr, sqn, dot. cbn. lra. }
  rewrite N. set (c := Rabs (qdot a b)) in *.
  assert (C : 0 <= c <= 1).
  { split; [apply Rabs_pos|]. apply Rsqr_incr_0_var; [|lra]. unfold c. rewrite <- Rsqr_abs. unfold Rsqr. lra. }
  clearbody c. unfold atan2. destruct (Rlt_dec 0 c) as [P|P].
  - symmetry. now apply acos_atan.
  - assert (c = 0) by lra. subst c. rewrite acos_0. destruct (Rlt_dec 0 (sqrt (1 - 0²))) as [|Q]; [reflexivity|].
    exfalso. apply Q. apply sqrt_lt_R0. unfold Rsqr. lra.
Qed.
Lemma abs_qdot a b : unit_quat a -> unit_quat b -> 0 <= Rabs (qdot a b) <= 1.
Proof.
  intros A B. split; [apply Rabs_pos|]. apply Rsqr_incr_0_var; [|lra]. rewrite <- Rsqr_abs.
  pose proof (qdot_bound a b A B). unfold Rsqr. lra.
Qed.
Lemma half_angle_range c : 0 <= c <= 1 -> 0 <= acos c <= PI / 2.
Proof.
  intros H. split; [apply acos_bound|]. rewrite <- acos_0. apply cos_decr_0; try apply acos_bound.
  rewrite !cos_acos; lra.
Qed.
Lemma trace_from_to a b : unit_quat a -> unit_quat b ->
  trace (from_to (rotation_matrix a) (rotation_matrix b)) = 4 * (qdot a b * qdot a b) - 1.
Proof.
  intros A B. rewrite !hom_ok by auto. change (sqnorm a = 1) in A. change (sqnorm b = 1) in B.
  transitivity (4 * (qdot a b * qdot a b) - sqnorm a * sqnorm b); [|rewrite A, B; ring].
  destruct a, b. unfold hom, sqnorm, qdot. cbn. cbv [trace from_to mmul mvmul mT dot]. cbn [vx vy vz r0 r1 r2]. ring.
Qed.
Lemma abs_sqr c : Rabs c * Rabs c = c * c.
Proof. unfold Rabs. destruct (Rcase_abs c); ring. Qed.
Lemma degrees x : x / euler_to_radian = x * 180 / PI.
Proof. unfold euler_to_radian. pose proof PI_RGT_0. field. lra. Qed.
Lemma radians_degrees x : radians (x / euler_to_radian) = x.
Proof. rewrite degrees. unfold radians. pose proof PI_RGT_0. field. lra. Qed.

(** The rotation error is, in degrees, the angle of the rotation that goes from one
    orientation to the other. *)
Theorem C92_rotation_error :
  forall a b, unit_quat (b_orientation a) -> unit_quat (b_orientation b) ->
  angle_of (from_to (matrix_of a) (matrix_of b)) (radians (rotation_error a b)) /\
  0 <= rotation_error a b <= 180.
Proof.
  intros a b A B. unfold rotation_error. rewrite radians_degrees. unfold matrix_of.
  rewrite (angular_acos _ _ A B). assert (C := abs_qdot _ _ A B). assert (H := half_angle_range _ C). repeat split; try lra.
  - rewrite (trace_from_to _ _ A B), cos_2a_cos, cos_acos by lra.
    replace (2 * Rabs (qdot (b_orientation a) (b_orientation b)) * Rabs (qdot (b_orientation a) (b_orientation b))) with
      (2 * (Rabs (qdot (b_orientation a) (b_orientation b)) * Rabs (qdot (b_orientation a) (b_orientation b)))) by ring.
    rewrite abs_sqr. ring.
  - rewrite degrees. pose proof PI_RGT_0. apply Rmult_le_pos; [|apply Rlt_le, Rinv_0_lt_compat; lra]. lra.
  - rewrite degrees. pose proof PI_RGT_0. apply Rmult_le_reg_r with PI; [lra|]. unfold Rdiv.
    rewrite Rmult_assoc, Rinv_l by lra. lra.
Qed.
Print Assumptions C92_rotation_error.

Lemma angle_unique m x y : angle_of m x -> angle_of m y -> x = y.
Proof. intros [X T] [Y S]. apply cos_inj; lra. Qed.
Lemma qdot_comm a b : qdot a b = qdot b a.
Proof. destruct a, b. unfold qdot. cbn. ring. Qed.
Lemma gram a b c : unit_quat a -> unit_quat b -> unit_quat c ->
  (qdot a c - qdot a b * qdot b c) * (qdot a c - qdot a b * qdot b c) <=
  (1 - qdot a b * qdot a b) * (1 - qdot b c * qdot b c).
Proof.
  intros A B C. unfold unit_quat in *.
  set (p := qdot a b). set (q := qdot b c).
  pose (a' := mkQuat (q_w a - p * q_w b) (q_x a - p * q_x b) (q_y a - p * q_y b) (q_z a - p * q_z b)).
  pose (c' := mkQuat (q_w c - q * q_w b) (q_x c - q * q_x b) (q_y c - q * q_y b) (q_z c - q * q_z b)).
  assert (Ea : sqnorm a' = 1 - p * p).
  { unfold sqnorm, a'. cbn. transitivity (q_w a * q_w a + q_x a * q_x a + q_y a * q_y a + q_z a * q_z a - 2 * p * qdot a b + p * p * (q_w b * q_w b + q_x b * q_x b + q_y b * q_y b + q_z b * q_z b)).
    - unfold qdot. ring.
    - rewrite B, A. fold p. ring. }
  assert (Ec : sqnorm c' = 1 - q * q).
  { unfold sqnorm, c'. cbn. transitivity (q_w c * q_w c + q_x c * q_x c + q_y c * q_y c + q_z c * q_z c - 2 * q * qdot b c + q * q * (q_w b * q_w b + q_x b * q_x b + q_y b * q_y b + q_z b * q_z b)).
    - unfold qdot. ring.
    - rewrite B, C. fold q. ring. }
  assert (Ed : qdot a' c' = qdot a c - p * q).
  { unfold a', c'. transitivity (qdot a c - q * qdot a b - p * qdot b c + p * q * (q_w b * q_w b + q_x b * q_x b + q_y b * q_y b + q_z b * q_z b)).
    - unfold qdot. cbn. ring.
    - rewrite B. fold p q. ring. }
  rewrite <- Ea, <- Ec, <- Ed. clearbody a' c'. destruct a' as [w x y z], c' as [w' x' y' z']. unfold sqnorm, qdot. cbn.
  apply Rminus_le. apply Rle_trans with (- ((w * x' - x * w') * (w * x' - x * w') + (w * y' - y * w') * (w * y' - y * w') + (w * z' - z * w') * (w * z' - z * w')
    + (x * y' - y * x') * (x * y' - y * x') + (x * z' - z * x') * (x * z' - z * x') + (y * z' - z * y') * (y * z' - z * y'))); [right; ring|].
  assert (forall t, 0 <= t * t) by (intros; nra).
  pose proof (H (w * x' - x * w')). pose proof (H (w * y' - y * w')). pose proof (H (w * z' - z * w')).
  pose proof (H (x * y' - y * x')). pose proof (H (x * z' - z * x')). pose proof (H (y * z' - z * y')). lra.
Qed.
Lemma acos_triangle a b c : unit_quat a -> unit_quat b -> unit_quat c ->
  acos (Rabs (qdot a c)) <= acos (Rabs (qdot a b)) + acos (Rabs (qdot b c)).
Proof.
  intros A B C. assert (P := abs_qdot _ _ A B). assert (Q := abs_qdot _ _ B C). assert (T := abs_qdot _ _ A C).
  assert (HP := half_angle_range _ P). assert (HQ := half_angle_range _ Q). assert (HT := half_angle_range _ T).
  apply cos_decr_0; try lra. rewrite cos_plus, !cos_acos by lra. rewrite !sin_acos by lra.
  rewrite <- sqrt_mult_alt by (rewrite <- Rsqr_abs; unfold Rsqr; pose proof (qdot_bound a b A B); lra).
  rewrite <- !Rsqr_abs. assert (G := gram a b c A B C).
  set (ab := qdot a b) in *. set (bc := qdot b c) in *. set (ac := qdot a c) in *.
  assert (R1 : Rabs (ac - ab * bc) <= sqrt ((1 - ab²) * (1 - bc²))).
  { rewrite <- sqrt_Rsqr_abs. apply sqrt_le_1_alt. unfold Rsqr. exact G. }
  rewrite <- Rabs_mult. pose proof (Rabs_triang_inv (ab * bc) ac) as R2. rewrite (Rabs_minus_sym (ab * bc) ac) in R2. lra.
Qed.
Lemma rotation_error_value a b : unit_quat (b_orientation a) -> unit_quat (b_orientation b) ->
  rotation_error a b = acos (Rabs (qdot (b_orientation a) (b_orientation b))) * (360 / PI).
Proof. intros A B. unfold rotation_error. rewrite angular_acos by auto. rewrite degrees. pose proof PI_RGT_0. field. lra. Qed.

(** The rotation error is a distance between rotations: symmetric, null for the same rotation
    only (a quaternion and its opposite are the same), and with no shortcut. *)
Theorem C92_rotation_distance :
  forall a b c, unit_quat (b_orientation a) -> unit_quat (b_orientation b) -> unit_quat (b_orientation c) ->
  rotation_error a b = rotation_error b a /\
  (rotation_error a b = 0 <-> matrix_of a = matrix_of b) /\
  rotation_error a c <= rotation_error a b + rotation_error b c.
Proof.
  intros a b c A B C. pose proof PI_RGT_0 as Pi.
  assert (K : 0 < 360 / PI) by (apply Rmult_lt_0_compat; [lra|now apply Rinv_0_lt_compat]).
  rewrite !rotation_error_value by auto. repeat split.
  - now rewrite qdot_comm.
  - intros E. assert (Z : acos (Rabs (qdot (b_orientation a) (b_orientation b))) = 0) by nra.
    assert (R := abs_qdot _ _ A B). assert (V : Rabs (qdot (b_orientation a) (b_orientation b)) = 1) by (rewrite <- (cos_acos (Rabs (qdot (b_orientation a) (b_orientation b)))) by lra; rewrite Z; apply cos_0).
    unfold matrix_of. set (p := b_orientation a) in *. set (q := b_orientation b) in *.
    assert (Sq : forall s, s * s = 1 -> s * qdot p q = 1 ->
       p = mkQuat (s * q_w q) (s * q_x q) (s * q_y q) (s * q_z q)).
    { intros s S1 S2. unfold unit_quat in A, B.
      assert (Z0 : sqnorm (mkQuat (q_w p - s * q_w q) (q_x p - s * q_x q) (q_y p - s * q_y q) (q_z p - s * q_z q)) = 0).
      { unfold sqnorm. cbn. transitivity (q_w p * q_w p + q_x p * q_x p + q_y p * q_y p + q_z p * q_z p - 2 * (s * qdot p q) + (s * s) * (q_w q * q_w q + q_x q * q_x q + q_y q * q_y q + q_z q * q_z q)).
        - unfold qdot. ring.
        - rewrite A, B, S1, S2. ring. }
      apply sqnorm_null in Z0. unfold null_quat in Z0. cbn in Z0. destruct p; cbn in *. f_equal; lra. }
    unfold Rabs in V. destruct (Rcase_abs (qdot p q)).
    + rewrite (Sq (-1)) by lra. destruct q. unfold rotation_matrix. cbn. apply mat_eq; apply vec_eq; cbn; ring.
    + rewrite (Sq 1) by lra. destruct q. unfold rotation_matrix. cbn. apply mat_eq; apply vec_eq; cbn; ring.
  - intros E. unfold matrix_of in E. assert (T := trace_from_to _ _ A B). rewrite E in T.
    unfold from_to in T. rewrite (proj1 (rotation_orthogonal _ B)) in T.
    assert (S : qdot (b_orientation a) (b_orientation b) * qdot (b_orientation a) (b_orientation b) = 1).
    { revert T. cbv [trace mid]. cbn. lra. }
    assert (R := abs_qdot _ _ A B). assert (V : Rabs (qdot (b_orientation a) (b_orientation b)) = 1).
    { rewrite <- abs_sqr in S. nra. }
    rewrite V, acos_1. ring.
  - pose proof (acos_triangle _ _ _ A B C). nra.
Qed.
Print Assumptions C92_rotation_distance.

(** The same motion added to two poses changes none of their errors. *)
Theorem C92_same_motion :
  forall a b p q, unit_quat (b_orientation a) -> unit_quat (b_orientation b) -> unit_quat q ->
  position_error (update_pose a p q) (update_pose b p q) = position_error a b /\
  rotation_error (update_pose a p q) (update_pose b p q) = rotation_error a b.
Proof.
  intros a b p q A B Q. split.
  - unfold position_error. cbn. f_equal. v3ring.
  - rewrite !rotation_error_value by (cbn; auto using unit_qmul). cbn. do 3 f_equal.
    transitivity (qdot (b_orientation a) (b_orientation b) * sqnorm q).
    + unfold qdot, sqnorm, qmul. cbn. ring.
    + change (sqnorm q = 1) in Q. rewrite Q. ring.
Qed.
Print Assumptions C92_same_motion.
