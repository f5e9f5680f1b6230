(** Screen, camera, world: the conversions are inverse of each other and keep distances. *)
From Verif Require Import GeometrySpec PlaneSegmentModel.
From Coq Require Import Lra Psatz.
Local Open Scope R_scope.

Ltac g3 := v3des; v3unfold.
Ltac gunfold := unfold world_axes, point_to_world, mulv4, outer, mid, m0, mscal, msub, madd, mmul, mT, mvmul, sqn, cross, dot, vscal, vneg, vsub, vadd, v0, homogeneous; cbn [lin col row corner hd4 tl4 vx vy vz r0 r1 r2].
Ltac vring := apply vec_eq; gunfold; cbn [lin col row corner hd4 tl4 vx vy vz r0 r1 r2]; ring.

(** * Screen and camera (C45) *)

Lemma double_equal_0 z : double_equal z 0 = false <-> machine_epsilon < Rabs z.
Proof.
  unfold double_equal. rewrite Rminus_0_r. destruct (Rle_dec (Rabs z) machine_epsilon); split; intros; try easy; lra.
Qed.
Lemma eps_pos : 0 < machine_epsilon.
Proof. unfold machine_epsilon. apply Rinv_0_lt_compat. apply pow_lt. lra. Qed.
Lemma eps_nz z : machine_epsilon < Rabs z -> z <> 0.
Proof. intros H ->. rewrite Rabs_R0 in H. pose proof eps_pos. lra. Qed.

(** The inverse of the intrinsics *)
Definition inverse_intrinsics fx fy cx cy : mat := mkM3 (mkV (/ fx) 0 (- cx / fx)) (mkV 0 (/ fy) (- cy / fy)) (mkV 0 0 1).
Lemma inverse_intrinsics_ok fx fy cx cy :
  fx <> 0 -> fy <> 0 -> is_inverse3 (intrinsics fx fy cx cy) (inverse_intrinsics fx fy cx cy).
Proof.
  intros A B. unfold is_inverse3, intrinsics, inverse_intrinsics, mmul, mid, mT, mvmul, dot. cbn.
  split; repeat f_equal; field; auto.
Qed.
Lemma inverse3_unique a b c : is_inverse3 a b -> is_inverse3 a c -> b = c.
Proof.
  intros [A B] [C D]. rewrite <- (mmul_id_r b), <- C, mmul_assoc, B. apply mmul_id_l.
Qed.
Lemma to_camera_value fx fy cx cy ki s :
  fx <> 0 -> fy <> 0 -> is_inverse3 (intrinsics fx fy cx cy) ki ->
  screen_to_camera ki s =
    if Rlt_dec (vx s) 0 then Throws else if Rlt_dec (vy s) 0 then Throws
    else if double_equal (vz s) 0 then Throws
    else Value (mkV (vz s * ((vx s - cx) / fx)) (vz s * ((vy s - cy) / fy)) (vz s)).
Proof.
  intros A B I. rewrite (inverse3_unique _ _ _ I (inverse_intrinsics_ok fx fy cx cy A B)).
  unfold screen_to_camera. destruct (Rlt_dec (vx s) 0); [easy|]. destruct (Rlt_dec (vy s) 0); [easy|].
  destruct (double_equal (vz s) 0); [easy|]. unfold inverse_intrinsics, mvmul, dot. cbn. apply f_equal, vec_eq; cbn; field; auto.
Qed.
Lemma to_screen_value fx fy cx cy p :
  vz p <> 0 ->
  camera_to_screen (intrinsics fx fy cx cy) p = Some (mkV (fx * vx p / vz p + cx) (fy * vy p / vz p + cy) (vz p)).
Proof.
  intros N. unfold camera_to_screen. destruct (Req_EM_T (vz p) 0); [easy|].
  unfold intrinsics, mvmul, dot. cbn. apply f_equal, vec_eq; cbn; field; auto.
Qed.

(** A pixel with a usable depth goes to camera space and back without change. *)
Theorem C45_screen_camera_screen :
  forall fx fy cx cy ki s, fx <> 0 -> fy <> 0 -> is_inverse3 (intrinsics fx fy cx cy) ki ->
  0 <= vx s -> 0 <= vy s -> machine_epsilon < Rabs (vz s) ->
  exists c, screen_to_camera ki s = Value c /\ vz c = vz s /\
            camera_to_screen (intrinsics fx fy cx cy) c = Some s.
Proof.
  intros fx fy cx cy ki s A B I X Y Z. rewrite (to_camera_value fx fy cx cy); auto.
  destruct (Rlt_dec (vx s) 0); [lra|]. destruct (Rlt_dec (vy s) 0); [lra|].
  rewrite (proj2 (double_equal_0 _) Z). eexists. split; [easy|]. split; [easy|].
  pose proof (eps_nz _ Z). rewrite to_screen_value by easy. cbn. destruct s as [x y z]. cbn in *.
  apply f_equal, vec_eq; cbn; field; auto.
Qed.
(** A camera point of non-null depth goes to the screen, where it is seen, and back without
    change; the way back is refused exactly for a negative pixel or a tiny depth. *)
Theorem C45_camera_screen_camera :
  forall fx fy cx cy ki p, fx <> 0 -> fy <> 0 -> is_inverse3 (intrinsics fx fy cx cy) ki -> vz p <> 0 ->
  exists s, camera_to_screen (intrinsics fx fy cx cy) p = Some s /\ seen_at fx fy cx cy p (vx s) (vy s) /\ vz s = vz p /\
    (screen_to_camera ki s = Throws <-> vx s < 0 \/ vy s < 0 \/ Rabs (vz p) <= machine_epsilon) /\
    (forall c, screen_to_camera ki s = Value c -> c = p).
Proof.
  intros fx fy cx cy ki p A B I Z. rewrite to_screen_value by easy. eexists. split; [easy|].
  split; [easy|]. split; [easy|]. rewrite (to_camera_value fx fy cx cy); auto. cbn [vx vy vz].
  destruct (Rlt_dec (fx * vx p / vz p + cx) 0); [split; [split; auto|discriminate]|].
  destruct (Rlt_dec (fy * vy p / vz p + cy) 0); [split; [split; auto|discriminate]|].
  destruct (double_equal (vz p) 0) eqn:E.
  - split; [split; auto|discriminate]. intros _. right. right.
    destruct (Rle_dec (Rabs (vz p)) machine_epsilon); [easy|].
    assert (double_equal (vz p) 0 = false) by (apply double_equal_0; lra). congruence.
  - apply double_equal_0 in E. split.
    + split; [discriminate|]. intros [H|[H|H]]; lra.
    + intros c [= <-]. destruct p as [x y z]. cbn in *. f_equal; field; auto.
Qed.
(** The intrinsics always have an inverse, and only one. *)
Theorem C45_intrinsics_invertible :
  forall fx fy cx cy, fx <> 0 -> fy <> 0 ->
  exists ki, is_inverse3 (intrinsics fx fy cx cy) ki /\ (forall k', is_inverse3 (intrinsics fx fy cx cy) k' -> k' = ki).
Proof.
  intros. exists (inverse_intrinsics fx fy cx cy). split; [now apply inverse_intrinsics_ok|].
  intros k' I. eapply inverse3_unique; eauto. now apply inverse_intrinsics_ok.
Qed.
(** Every point of the screen with a positive depth, as it is tested by the code, is accepted
    as soon as its depth is above the rounding unit. *)
Theorem C45_screen_points_accepted :
  forall fx fy cx cy ki width height s, fx <> 0 -> fy <> 0 -> is_inverse3 (intrinsics fx fy cx cy) ki ->
  in_screen width height s -> machine_epsilon < vz s -> screen_to_camera ki s <> Throws.
Proof.
  intros fx fy cx cy ki w h s A B I [X [Y Z]] E.
  destruct (C45_screen_camera_screen fx fy cx cy ki s A B I) as [c [C _]]; try lra; [|congruence].
  rewrite Rabs_right; lra.
Qed.
(** That a point projects inside of the screen does not mean that the camera sees it: a point
    behind the camera is projected too. *)
Theorem C45_only_in_front_refuted :
  exists fx fy cx cy width height p s, 0 < fx /\ 0 < fy /\ vz p < 0 /\
    camera_to_screen (intrinsics fx fy cx cy) p = Some s /\ in_screen_2d width height s.
Proof.
  exists 500, 500, 320, 240, 640, 480, (mkV 10 10 (-1000)), (mkV 315 235 (-1000)).
  rewrite to_screen_value by (cbn; lra). cbn. unfold in_screen_2d. cbn.
  repeat split; try lra. apply f_equal, vec_eq; cbn; lra.
Qed.
(** The pixel tells the direction: two points are seen at the same pixel exactly when they are
    on the same line by the center of the camera. *)
Theorem C45_same_pixel_same_ray :
  forall fx fy cx cy p q s, fx <> 0 -> fy <> 0 -> vz p <> 0 -> vz q <> 0 ->
  camera_to_screen (intrinsics fx fy cx cy) p = Some s ->
  (exists s', camera_to_screen (intrinsics fx fy cx cy) q = Some s' /\ vx s' = vx s /\ vy s' = vy s) <-> on_line v0 p q.
Proof.
  intros fx fy cx cy p q s A B P Q. rewrite !to_screen_value by easy. intros [= <-]. cbn. split.
  - intros [s' [[= <-] [X Y]]]. cbn in *.
    assert (X1 : vx q = vz q / vz p * vx p).
    { apply (Rmult_eq_reg_l (fx / vz q)); [|intros E; apply A; apply (Rmult_eq_reg_r (/ vz q)); [unfold Rdiv in E; lra|now apply Rinv_neq_0_compat]].
      replace (fx / vz q * vx q) with (fx * vx q / vz q) by (field; auto).
      replace (fx / vz q * (vz q / vz p * vx p)) with (fx * vx p / vz p) by (field; auto). lra. }
    assert (Y1 : vy q = vz q / vz p * vy p).
    { apply (Rmult_eq_reg_l (fy / vz q)); [|intros E; apply B; apply (Rmult_eq_reg_r (/ vz q)); [unfold Rdiv in E; lra|now apply Rinv_neq_0_compat]].
      replace (fy / vz q * vy q) with (fy * vy q / vz q) by (field; auto).
      replace (fy / vz q * (vz q / vz p * vy p)) with (fy * vy p / vz p) by (field; auto). lra. }
    exists (vz q / vz p). apply vec_eq; cbn; rewrite ?X1, ?Y1; try lra. field; auto.
  - intros [t E]. rewrite E in *. cbn in *. eexists. split; [reflexivity|]. cbn.
    assert (t <> 0) by (intros ->; lra). split; field; repeat split; auto; intros Z; apply Q; lra.
Qed.
Print Assumptions C45_screen_camera_screen.
Print Assumptions C45_camera_screen_camera.
Example C45_example :
  screen_to_camera (inverse_intrinsics 500 500 320 240) (mkV 420 240 1000) = Value (mkV 200 0 1000) /\
  camera_to_screen (intrinsics 500 500 320 240) (mkV 200 0 1000) = Some (mkV 420 240 1000) /\
  machine_epsilon < Rabs 1000.
Proof.
  assert (E : machine_epsilon < Rabs 1000).
  { unfold machine_epsilon. rewrite Rabs_right by lra. apply (Rlt_le_trans _ 1); [|lra].
    apply (Rmult_lt_reg_l (2 ^ 52)); [apply pow_lt; lra|]. rewrite Rinv_r; [simpl; lra|apply pow_nonzero; lra]. }
  split; [|split; [|easy]].
  - rewrite (to_camera_value 500 500 320 240); try lra; [|apply inverse_intrinsics_ok; lra]. cbn [vx vy vz].
    destruct (Rlt_dec 420 0); [lra|]. destruct (Rlt_dec 240 0); [lra|].
    rewrite (proj2 (double_equal_0 _) E). apply f_equal, vec_eq; cbn; lra.
  - rewrite to_screen_value by (cbn; lra). cbn. apply f_equal, vec_eq; cbn; lra.
Qed.

(** * Camera and world (C46) *)

Lemma rotation_orthogonal q : unit_quat q -> orthogonal (rotation_matrix q).
Proof.
  destruct q as [w x y z]. unfold unit_quat, orthogonal, rotation_matrix. cbn. intros U.
  assert (W : w * w = 1 - x * x - y * y - z * z) by lra.
  unfold mmul, mT, mvmul, dot, mid. cbn.
  split; apply mat_eq; apply vec_eq; cbn; ring_simplify; try ring [W].
Qed.
Lemma axes_value : axes = mkM4 (mkM3 (mkV 0 0 1) (mkV (-1) 0 0) (mkV 0 (-1) 0)) v0 v0 1.
Proof.
  unfold axes, transformation. f_equal. unfold quaternion_from_euler, angle_axis, euler_to_radian.
  replace (0 / 2) with 0 by field. replace (90 * (PI / 180) / 2) with (PI / 4) by field.
  replace (- 90 * (PI / 180) / 2) with (- (PI / 4)) by field.
  rewrite cos_neg, sin_neg, cos_0, sin_0, cos_PI4, sin_PI4.
  assert (S : sqrt 2 * sqrt 2 = 2) by (apply sqrt_sqrt; lra).
  assert (N : sqrt 2 <> 0) by (intros E; rewrite E in S; lra).
  assert (H : (1 / sqrt 2) * (1 / sqrt 2) = / 2) by (replace (/ 2) with (/ (sqrt 2 * sqrt 2)) by (now rewrite S); field; auto).
  set (h := 1 / sqrt 2) in *. clearbody h.
  unfold rotation_matrix, qmul. cbn. apply mat_eq; apply vec_eq; cbn; ring_simplify; try lra.
  all: replace (h ^ 4) with ((h * h) * (h * h)) by ring; rewrite ?H; lra.
Qed.
Definition swap : mat := mkM3 (mkV 0 0 1) (mkV (-1) 0 0) (mkV 0 (-1) 0).
Lemma swap_orthogonal : orthogonal swap.
Proof. split; apply mat_eq; apply vec_eq; unfold swap; v3unfold; cbn; ring. Qed.
Lemma swap_axes v : mvmul swap v = world_axes v.
Proof. destruct v. unfold swap, world_axes. v3unfold. cbn. vring. Qed.
Lemma camera_to_world_value q t :
  camera_to_world q t = mkM4 (mmul swap (rotation_matrix q)) (world_axes t) v0 1.
Proof.
  unfold camera_to_world. rewrite axes_value. fold swap. unfold mul4, transformation. cbn [lin col row corner].
  rewrite <- swap_axes. f_equal.
  - apply mat_eq; vring.
  - vring.
  - vring.
  - gunfold; cbn [lin col row corner hd4 tl4 vx vy vz r0 r1 r2]; ring.
Qed.
Lemma camera_to_world_orthogonal q t : unit_quat q -> orthogonal (lin (camera_to_world q t)).
Proof.
  intros U. rewrite camera_to_world_value. cbn. apply orthogonal_mul; [apply swap_orthogonal|now apply rotation_orthogonal].
Qed.
Lemma point_to_world_value q t p :
  point_to_world (camera_to_world q t) p = world_axes (vadd (mvmul (rotation_matrix q) p) t).
Proof.
  rewrite camera_to_world_value. unfold point_to_world, mulv4. cbn [lin col row corner hd4 tl4 homogeneous].
  rewrite mvmul_mmul, swap_axes. vring.
Qed.

(** Rigid transformations, as 4 x 4 matrices *)
Definition rigid4 (m : m4) : Prop := orthogonal (lin m) /\ row m = v0 /\ corner m = 1.
Lemma id4_rigid : rigid4 id4.
Proof. split; [unfold id4; cbn [lin]; split; apply mat_eq; vring|easy]. Qed.
Lemma camera_to_world_rigid q t : unit_quat q -> rigid4 (camera_to_world q t).
Proof. intros U. split; [now apply camera_to_world_orthogonal|]. rewrite camera_to_world_value. easy. Qed.
Lemma mul4_id_l a : mul4 id4 a = a.
Proof.
  destruct a as [l c r k]. unfold mul4, id4. cbn [lin col row corner]. rewrite mmul_id_l, mvmul_id. f_equal.
  - g3. apply mat_eq; vring.
  - vring.
  - vring.
  - gunfold; cbn [lin col row corner hd4 tl4 vx vy vz r0 r1 r2]; ring.
Qed.
Lemma mul4_id_r a : mul4 a id4 = a.
Proof.
  destruct a as [l c r k]. unfold mul4, id4. cbn [lin col row corner]. rewrite mmul_id_r. f_equal.
  - apply mat_eq; vring.
  - vring.
  - vring.
  - gunfold; cbn [lin col row corner hd4 tl4 vx vy vz r0 r1 r2]; ring.
Qed.
Lemma mmul_madd_r a b c : mmul a (madd b c) = madd (mmul a b) (mmul a c).
Proof. v3ring. Qed.
Lemma mmul_madd_l a b c : mmul (madd a b) c = madd (mmul a c) (mmul b c).
Proof. v3ring. Qed.
Lemma mvmul_madd a b v : mvmul (madd a b) v = vadd (mvmul a v) (mvmul b v).
Proof. v3ring. Qed.
Lemma mmul_outer_r m a b : mmul m (outer a b) = outer (mvmul m a) b.
Proof. v3ring. Qed.
Lemma mmul_outer_l m a b : mmul (outer a b) m = outer a (mvmul (mT m) b).
Proof. v3ring. Qed.
Lemma outer_add_r a b c : outer a (vadd b c) = madd (outer a b) (outer a c).
Proof. v3ring. Qed.
Lemma outer_add_l a b c : outer (vadd a b) c = madd (outer a c) (outer b c).
Proof. v3ring. Qed.
Lemma outer_scal k a b : outer a (vscal k b) = outer (vscal k a) b.
Proof. v3ring. Qed.
Lemma madd_assoc a b c : madd a (madd b c) = madd (madd a b) c.
Proof. v3ring. Qed.
Lemma madd_swap a b c : madd (madd a b) c = madd (madd a c) b.
Proof. v3ring. Qed.
Lemma mT_madd a b : mT (madd a b) = madd (mT a) (mT b).
Proof. v3ring. Qed.
Lemma mT_outer a b : mT (outer a b) = outer b a.
Proof. v3ring. Qed.
Lemma mul4_assoc a b c : mul4 a (mul4 b c) = mul4 (mul4 a b) c.
Proof.
  destruct a as [la ca ra ka], b as [lb cb rb kb], c as [lc cc rc kc]. unfold mul4. cbn [lin col row corner].
  f_equal.
  - rewrite mmul_madd_r, mmul_madd_l, mmul_outer_r, mmul_outer_l, outer_add_r, outer_add_l, outer_scal, mmul_assoc.
    rewrite !madd_assoc. f_equal. apply madd_swap.
  - rewrite mvmul_add, mvmul_scal, mvmul_madd, mvmul_mmul, mvmul_outer.
    set (x := mvmul la (mvmul lb cc)). set (y := mvmul la cb). set (k := dot rb cc). clearbody x y k. clear. vring.
  - rewrite mvmul_add, mvmul_scal, mT_madd, mvmul_madd, mT_mmul, mvmul_mmul, mT_outer, mvmul_outer, (dot_comm cb ra).
    set (x := mvmul (mT lc) (mvmul (mT lb) ra)). set (y := mvmul (mT lc) rb). set (k := dot ra cb). clearbody x y k. clear. vring.
  - rewrite dot_add_r, dot_add_l, dot_mvmul, !dot_scal_l, !dot_scal_r. ring.
Qed.
Lemma inverse4_unique a b c : is_inverse4 a b -> is_inverse4 a c -> b = c.
Proof. intros [A B] [C D]. rewrite <- (mul4_id_r b), <- C, mul4_assoc, B. apply mul4_id_l. Qed.
Lemma inverse4_sym a b : is_inverse4 a b -> is_inverse4 b a.
Proof. intros [A B]. now split. Qed.
Lemma mulv4_mul a b v : mulv4 (mul4 a b) v = mulv4 a (mulv4 b v).
Proof.
  destruct a as [la ca ra ka], b as [lb cb rb kb], v as [h l]. unfold mul4, mulv4. cbn [lin col row corner hd4 tl4].
  f_equal; [vring|gunfold; cbn [lin col row corner hd4 tl4 vx vy vz r0 r1 r2]; ring].
Qed.
Lemma mulv4_id v : mulv4 id4 v = v.
Proof. destruct v as [h l]. unfold mulv4, id4. cbn [lin col row corner hd4 tl4]. f_equal; [vring|gunfold; cbn [lin col row corner hd4 tl4 vx vy vz r0 r1 r2]; ring]. Qed.
Definition rigid_inverse (m : m4) : m4 := mkM4 (mT (lin m)) (vneg (mvmul (mT (lin m)) (col m))) v0 1.
Lemma rigid_inverse_ok m : rigid4 m -> is_inverse4 m (rigid_inverse m).
Proof.
  destruct m as [l c r k]. intros [[A B] [R K]]. cbn in *. subst r k. unfold rigid_inverse, is_inverse4, mul4, id4.
  cbn [lin col row corner]. split; f_equal.
  - rewrite A. apply mat_eq; vring.
  - rewrite <- (mvmul_id c) at 2. rewrite <- A, mvmul_mmul. vring.
  - vring.
  - gunfold; cbn [lin col row corner hd4 tl4 vx vy vz r0 r1 r2]; ring.
  - rewrite B. apply mat_eq; vring.
  - vring.
  - vring.
  - gunfold; cbn [lin col row corner hd4 tl4 vx vy vz r0 r1 r2]; ring.
Qed.
Lemma rigid_inverse_rigid m : rigid4 m -> rigid4 (rigid_inverse m).
Proof. intros [A _]. split; [now apply orthogonal_T|]. easy. Qed.
Lemma rigid_to_camera m p : rigid4 m -> point_to_camera m p = point_to_world m p.
Proof.
  destruct m as [l c r k]. intros [A [R K]]. cbn in R, K. subst r k.
  unfold point_to_camera, point_to_world, mulv4, homogeneous. cbn [lin col row corner hd4 tl4].
  assert (E : dot v0 p + 1 * 1 = 1) by (gunfold; ring). rewrite E.
  destruct (vadd (mvmul l p) (vscal 1 c)). cbn. f_equal; field.
Qed.
Lemma mulv4_homogeneous m p : rigid4 m -> mulv4 m (homogeneous p) = homogeneous (point_to_world m p).
Proof.
  destruct m as [l c r k]. intros [A [R K]]. cbn in R, K. subst r k.
  unfold point_to_world, mulv4, homogeneous. cbn [lin col row corner hd4 tl4]. f_equal. gunfold; cbn [lin col row corner hd4 tl4 vx vy vz r0 r1 r2]; ring.
Qed.
Lemma rigid_round_trip m n p : rigid4 m -> is_inverse4 m n ->
  point_to_world n (point_to_world m p) = p /\ point_to_world m (point_to_world n p) = p /\ rigid4 n.
Proof.
  intros R I. pose proof (rigid_inverse_ok m R) as J. rewrite (inverse4_unique _ _ _ I J).
  pose proof (rigid_inverse_rigid m R) as R'. destruct J as [J1 J2].
  split; [|split; [|easy]].
  - unfold point_to_world at 1. rewrite <- mulv4_homogeneous, <- mulv4_mul, J2, mulv4_id by easy. easy.
  - unfold point_to_world at 1. rewrite <- mulv4_homogeneous, <- mulv4_mul, J1, mulv4_id by easy. easy.
Qed.

(** The way back to camera space is the inverse of the way to world space, for every pose and
    every point. *)
Theorem C46_inverse :
  forall q t w2c p, unit_quat q -> world_to_camera (camera_to_world q t) w2c ->
  point_to_camera w2c (point_to_world (camera_to_world q t) p) = p /\
  point_to_world (camera_to_world q t) (point_to_camera w2c p) = p.
Proof.
  intros q t w2c p U I. pose proof (camera_to_world_rigid q t U) as R.
  destruct (rigid_round_trip _ _ p R I) as [A [B C]]. rewrite !rigid_to_camera by easy. easy.
Qed.
(** The inverse used by the code always exists, and there is only one. *)
Theorem C46_inverse_exists :
  forall q t, unit_quat q ->
  exists w2c, world_to_camera (camera_to_world q t) w2c /\
              (forall m, world_to_camera (camera_to_world q t) m -> m = w2c).
Proof.
  intros q t U. exists (rigid_inverse (camera_to_world q t)).
  pose proof (rigid_inverse_ok _ (camera_to_world_rigid q t U)) as I. split; [easy|].
  intros m J. eapply inverse4_unique; eauto.
Qed.
(** Both ways keep the distances. *)
Theorem C46_distances :
  forall q t w2c a b, unit_quat q -> world_to_camera (camera_to_world q t) w2c ->
  dist (point_to_world (camera_to_world q t) a) (point_to_world (camera_to_world q t) b) = dist a b /\
  dist (point_to_camera w2c a) (point_to_camera w2c b) = dist a b.
Proof.
  assert (G : forall m a b, rigid4 m -> dist (point_to_world m a) (point_to_world m b) = dist a b).
  { intros m a b [O _]. unfold dist, norm. f_equal. unfold sqn.
    replace (vsub (point_to_world m a) (point_to_world m b)) with (mvmul (lin m) (vsub a b)).
    - now apply orthogonal_dot.
    - unfold point_to_world, mulv4. cbn. vring. }
  intros q t w2c a b U I. pose proof (camera_to_world_rigid q t U) as R.
  destruct (rigid_round_trip _ _ a R I) as [_ [_ C]]. rewrite !rigid_to_camera by easy. split; now apply G.
Qed.
(** The center of the camera is at the position of the pose, in the axes of the world, and
    the optical axis of a camera that is not turned looks along the x axis. *)
Theorem C46_camera_center :
  forall q t, point_to_world (camera_to_world q t) v0 = world_axes t /\
  forall z, point_to_world (camera_to_world (mkQuat 1 0 0 0) t) (mkV 0 0 z) = vadd (mkV z 0 0) (world_axes t).
Proof.
  intros q t. split; [|intros z]; rewrite point_to_world_value; unfold rotation_matrix; cbn [q_w q_x q_y q_z]; vring.
Qed.
(** Moving the pose moves the points by the same vector, turned to the axes of the world. *)
Theorem C46_translation :
  forall q t u p, point_to_world (camera_to_world q (vadd t u)) p =
                  vadd (point_to_world (camera_to_world q t) p) (world_axes u).
Proof. intros. rewrite !point_to_world_value. unfold world_axes. vring. Qed.
Print Assumptions C46_inverse.
Print Assumptions C46_distances.
Print Assumptions C46_camera_center.
Example C46_example :
  unit_quat (mkQuat (3 / 5) (4 / 5) 0 0) /\
  point_to_world (camera_to_world (mkQuat (3 / 5) (4 / 5) 0 0) (mkV 1 2 3)) (mkV 10 0 0) = mkV 3 (-11) (-2).
Proof.
  split; [unfold unit_quat; cbn; lra|]. rewrite point_to_world_value. unfold world_axes, mvmul, dot. apply vec_eq; cbn; lra.
Qed.

(** * Planes (C47) *)

Definition proper (p : plane) : Prop := is_unit (pl_normal p).
Lemma transform_plane_value m p : rigid4 m -> proper p ->
  transform_plane (plane_camera_to_world m) p =
  mkPlane (mvmul (lin m) (pl_normal p)) (pl_d p - dot (col m) (mvmul (lin m) (pl_normal p))).
Proof.
  intros [O _] U. unfold transform_plane, plane_camera_to_world, mulv4, make_plane. cbn [lin col row corner hd4 tl4].
  f_equal.
  - replace (vadd (mvmul (lin m) (pl_normal p)) (vscal (pl_d p) v0)) with (mvmul (lin m) (pl_normal p)) by (vring).
    apply normalized_unit. unfold is_unit. rewrite orthogonal_dot by easy. apply U.
  - rewrite dot_neg_l, <- dot_mvmul. ring.
Qed.
Lemma plane_matrix_inverse m : rigid4 m ->
  is_inverse4 (plane_camera_to_world m) (plane_camera_to_world (rigid_inverse m)).
Proof.
  destruct m as [l c r k]. intros [[A B] [R K]]. cbn in A, B, R, K. subst r k.
  assert (E : vneg (mvmul (mT (mT l)) (vneg (mvmul (mT l) c))) = c).
  { rewrite mT_mT. rewrite <- (mvmul_id c) at 2. rewrite <- A, mvmul_mmul. vring. }
  unfold plane_camera_to_world, rigid_inverse, is_inverse4, mul4, id4. cbn [lin col row corner]. rewrite E.
  split; f_equal.
  - rewrite A. apply mat_eq; vring.
  - vring.
  - rewrite mT_mT. replace (mvmul l (vneg (mvmul (mT l) c))) with (vneg c).
    + vring.
    + rewrite <- (mvmul_id c) at 1. rewrite <- A, mvmul_mmul. vring.
  - gunfold; cbn [lin col row corner hd4 tl4 vx vy vz r0 r1 r2]; ring.
  - rewrite B. apply mat_eq; vring.
  - vring.
  - vring.
  - gunfold; cbn [lin col row corner hd4 tl4 vx vy vz r0 r1 r2]; ring.
Qed.
Lemma rigid_inverse_twice m : rigid4 m -> rigid_inverse (rigid_inverse m) = m.
Proof.
  intros R. pose proof (rigid_inverse_ok m R) as I.
  pose proof (rigid_inverse_ok _ (rigid_inverse_rigid m R)) as J.
  eapply inverse4_unique; [exact J|]. now apply inverse4_sym.
Qed.
Lemma plane_world_to_camera_value m w2c w2c_plane : rigid4 m -> is_inverse4 m w2c ->
  plane_world_to_camera w2c w2c_plane -> w2c_plane = plane_camera_to_world w2c /\ w2c = rigid_inverse m.
Proof.
  intros R I [c [A B]]. pose proof (rigid_inverse_ok m R) as J. pose proof (inverse4_unique _ _ _ I J) as ->.
  assert (c = m) as ->.
  { eapply inverse4_unique; [exact A|]. now apply inverse4_sym. }
  split; [|easy]. eapply inverse4_unique; [exact B|]. now apply plane_matrix_inverse.
Qed.
Lemma plane_distance m p x : rigid4 m -> proper p ->
  point_distance (transform_plane (plane_camera_to_world m) p) (point_to_world m x) = point_distance p x.
Proof.
  intros R U. rewrite transform_plane_value by easy. unfold point_distance. cbn [pl_normal pl_d].
  replace (point_to_world m x) with (vadd (mvmul (lin m) x) (col m)).
  - rewrite dot_add_r. rewrite orthogonal_dot by apply R. rewrite (dot_comm (col m)). ring.
  - unfold point_to_world, mulv4. cbn. vring.
Qed.
Lemma plane_unit m p : rigid4 m -> proper p -> proper (transform_plane (plane_camera_to_world m) p).
Proof.
  intros R U. rewrite transform_plane_value by easy. unfold proper, is_unit. cbn. rewrite orthogonal_dot by apply R. apply U.
Qed.
Lemma plane_round_trip m p : rigid4 m -> proper p ->
  transform_plane (plane_camera_to_world (rigid_inverse m)) (transform_plane (plane_camera_to_world m) p) = p.
Proof.
  intros R U. rewrite (transform_plane_value (rigid_inverse m)); [|now apply rigid_inverse_rigid|now apply plane_unit].
  rewrite transform_plane_value by easy. destruct p as [n d]. unfold rigid_inverse. cbn [lin col row corner pl_normal pl_d].
  rewrite orthogonal_inv by apply R. f_equal. rewrite dot_neg_l, <- dot_mvmul. ring.
Qed.

(** The signed distance of a point to a plane does not depend on the space in which both are
    expressed, in both directions; the transformed planes are proper planes. *)
Theorem C47_distances :
  forall q t w2c w2c_plane p x, unit_quat q -> is_unit (pl_normal p) ->
  world_to_camera (camera_to_world q t) w2c -> plane_world_to_camera w2c w2c_plane ->
  let c2w := camera_to_world q t in
  point_distance (transform_plane (plane_camera_to_world c2w) p) (point_to_world c2w x) = point_distance p x /\
  point_distance (transform_plane w2c_plane p) (point_to_camera w2c x) = point_distance p x /\
  is_unit (pl_normal (transform_plane (plane_camera_to_world c2w) p)) /\
  is_unit (pl_normal (transform_plane w2c_plane p)).
Proof.
  intros q t w2c w2c_plane p x U P I J c2w. pose proof (camera_to_world_rigid q t U) as R. fold c2w in R, I.
  destruct (plane_world_to_camera_value _ _ _ R I J) as [-> E].
  assert (R' : rigid4 w2c) by (rewrite E; now apply rigid_inverse_rigid).
  rewrite rigid_to_camera by easy.
  split; [now apply plane_distance|]. split; [now apply plane_distance|]. split; now apply plane_unit.
Qed.
(** A plane goes to world space and back, and to camera space and back, without change. *)
Theorem C47_round_trip :
  forall q t w2c w2c_plane p, unit_quat q -> is_unit (pl_normal p) ->
  world_to_camera (camera_to_world q t) w2c -> plane_world_to_camera w2c w2c_plane ->
  let c2w_plane := plane_camera_to_world (camera_to_world q t) in
  transform_plane w2c_plane (transform_plane c2w_plane p) = p /\
  transform_plane c2w_plane (transform_plane w2c_plane p) = p.
Proof.
  intros q t w2c w2c_plane p U P I J c2w. pose proof (camera_to_world_rigid q t U) as R. unfold c2w.
  destruct (plane_world_to_camera_value _ _ _ R I J) as [-> ->]. split; [now apply plane_round_trip|].
  rewrite <- (rigid_inverse_twice _ R) at 1. apply plane_round_trip; [now apply rigid_inverse_rigid|easy].
Qed.
(** The inverses used to transform the planes always exist. *)
Theorem C47_inverse_exists :
  forall q t w2c, unit_quat q -> world_to_camera (camera_to_world q t) w2c ->
  exists w2c_plane, plane_world_to_camera w2c w2c_plane /\ (forall m, plane_world_to_camera w2c m -> m = w2c_plane).
Proof.
  intros q t w2c U I. pose proof (camera_to_world_rigid q t U) as R.
  exists (plane_camera_to_world w2c). split.
  - exists (camera_to_world q t). split; [now apply inverse4_sym|].
    rewrite (inverse4_unique _ _ _ I (rigid_inverse_ok _ R)). now apply plane_matrix_inverse.
  - intros m J. now destruct (plane_world_to_camera_value _ _ _ R I J).
Qed.
(** Angles between planes are kept. *)
Theorem C47_angles :
  forall q t p p', unit_quat q -> is_unit (pl_normal p) -> is_unit (pl_normal p') ->
  let m := plane_camera_to_world (camera_to_world q t) in
  cos_angle (transform_plane m p) (transform_plane m p') = cos_angle p p'.
Proof.
  intros q t p p' U P P' m. unfold m. pose proof (camera_to_world_rigid q t U) as R.
  rewrite !transform_plane_value by easy. unfold cos_angle. cbn. apply orthogonal_dot. apply R.
Qed.
Print Assumptions C47_distances.
Print Assumptions C47_round_trip.
Example C47_example :
  unit_quat (mkQuat (3 / 5) (4 / 5) 0 0) /\ is_unit (pl_normal (mkPlane (mkV 0 0 1) (-1000))) /\
  transform_plane (plane_camera_to_world (camera_to_world (mkQuat (3 / 5) (4 / 5) 0 0) (mkV 1 2 3))) (mkPlane (mkV 0 0 1) (-1000))
    <> mkPlane (mkV 0 0 1) (-1000).
Proof.
  assert (U : unit_quat (mkQuat (3 / 5) (4 / 5) 0 0)) by (unfold unit_quat; cbn; lra).
  assert (P : is_unit (pl_normal (mkPlane (mkV 0 0 1) (-1000)))) by (unfold is_unit, dot; cbn; lra).
  split; [easy|]. split; [easy|].
  rewrite transform_plane_value; [|now apply camera_to_world_rigid|easy]. rewrite camera_to_world_value. intros E.
  apply (f_equal pl_d) in E. cbn [pl_d lin col row corner pl_normal] in E. unfold rotation_matrix, swap in E. cbn [q_w q_x q_y q_z] in E.
  unfold world_axes, mvmul, mmul, mvmul, mT, dot in E. cbn in E. lra.
Qed.

(** * Residuals (C65) *)

(** A map point has no pixel error exactly when it is seen at this pixel, and then only. *)
Theorem C65_pixel :
  forall fx fy cx cy q t w2c world x y, unit_quat q -> world_to_camera (camera_to_world q t) w2c ->
  let p := point_to_camera w2c world in
  (pixel_residual (intrinsics fx fy cx cy) w2c world x y = Some (0, 0) <-> vz p <> 0 /\ seen_at fx fy cx cy p x y) /\
  (pixel_residual (intrinsics fx fy cx cy) w2c world x y = None <-> vz p = 0) /\
  (pixel_distance (intrinsics fx fy cx cy) w2c world x y = Some 0 <-> vz p <> 0 /\ seen_at fx fy cx cy p x y).
Proof.
  intros fx fy cx cy q t w2c world x y U I p. unfold pixel_distance, pixel_residual. fold p. clearbody p.
  destruct (Req_EM_T (vz p) 0) as [E|N].
  - unfold camera_to_screen. destruct (Req_EM_T (vz p) 0); [|easy]. repeat split; try easy; intros []; easy.
  - rewrite to_screen_value by easy. cbn. unfold seen_at. split; [|split].
    + split.
      * intros [= A B]. split; [easy|]. split; lra.
      * intros [_ [A B]]. do 2 f_equal; lra.
    + split; [discriminate|easy].
    + split.
      * intros [= A]. split; [easy|].
        pose proof (Rabs_pos (x - (fx * vx p / vz p + cx))). pose proof (Rabs_pos (y - (fy * vy p / vz p + cy))).
        assert (B : Rabs (x - (fx * vx p / vz p + cx)) = 0) by lra. assert (C : Rabs (y - (fy * vy p / vz p + cy)) = 0) by lra.
        split.
        -- destruct (Req_dec (x - (fx * vx p / vz p + cx)) 0) as [Z|Z]; [lra|]. apply Rabs_pos_lt in Z. lra.
        -- destruct (Req_dec (y - (fy * vy p / vz p + cy)) 0) as [Z|Z]; [lra|]. apply Rabs_pos_lt in Z. lra.
      * intros [_ [A B]]. f_equal. rewrite A, B, !Rminus_diag_eq by reflexivity. rewrite Rabs_R0. ring.
Qed.
(** A map point has no metric error exactly when the observed point is there. *)
Theorem C65_metric :
  forall fx fy cx cy ki q t w2c world s, fx <> 0 -> fy <> 0 -> is_inverse3 (intrinsics fx fy cx cy) ki ->
  unit_quat q -> world_to_camera (camera_to_world q t) w2c ->
  0 <= vx s -> 0 <= vy s -> machine_epsilon < Rabs (vz s) ->
  (metric_residual ki (camera_to_world q t) world s = Value v0 <->
   camera_to_screen (intrinsics fx fy cx cy) (point_to_camera w2c world) = Some s).
Proof.
  intros fx fy cx cy ki q t w2c world s A B I U W X Y Z.
  destruct (C45_screen_camera_screen fx fy cx cy ki s A B I X Y Z) as [c [C [E D]]].
  unfold metric_residual. rewrite C. split.
  - intros H. assert (world = point_to_world (camera_to_world q t) c) as ->.
    { set (m := point_to_world (camera_to_world q t) c) in *. clearbody m. injection H as E1 E2 E3. apply vec_eq; lra. }
    now rewrite (proj1 (C46_inverse q t w2c c U W)).
  - intros H. assert (G : point_to_camera w2c world = c).
    { pose proof (eps_nz _ Z) as NZ. assert (vz (point_to_camera w2c world) <> 0).
      { intros Q. unfold camera_to_screen in H. destruct (Req_EM_T (vz (point_to_camera w2c world)) 0); easy. }
      destruct (C45_camera_screen_camera fx fy cx cy ki (point_to_camera w2c world) A B I) as [s' [S1 [_ [_ [_ S2]]]]]; [easy|].
      rewrite H in S1. injection S1 as <-. symmetry. now apply S2. }
    rewrite <- G. rewrite (proj2 (C46_inverse q t w2c world U W)). f_equal. vring.
Qed.
(** The error of a plane: none exactly when both planes contain the center of the camera, or
    when they are the same plane, up to the sign of the parameters. *)
Theorem C65_plane :
  forall w2c_plane world camera, is_unit (pl_normal (transform_plane w2c_plane world)) -> is_unit (pl_normal camera) ->
  let projected := transform_plane w2c_plane world in
  (plane_residual w2c_plane world camera = v0 <->
   (pl_d camera = 0 /\ pl_d projected = 0) \/ projected = camera \/
   projected = mkPlane (vneg (pl_normal camera)) (- pl_d camera)).
Proof.
  intros m world camera U V projected. unfold plane_residual. fold projected in U |- *.
  destruct projected as [n d], camera as [n' d']. cbn [pl_normal pl_d] in *. split.
  - intros E.
    assert (H : vscal d' n' = vscal d n) by (injection E as E1 E2 E3; apply vec_eq; cbn in *; lra).
    assert (S : d' * d' = d * d).
    { assert (G : dot (vscal d' n') (vscal d' n') = dot (vscal d n) (vscal d n)) by now rewrite H.
      rewrite !dot_scal_l, !dot_scal_r in G. unfold is_unit in U, V. rewrite U, V in G. lra. }
    destruct (Req_EM_T d' 0) as [->|N]; [left; split; nra|right].
    assert (d = d' \/ d = - d') as [-> | ->] by (destruct (Rmult_integral (d - d') (d + d')); [nra|left; lra|right; lra]).
    + left. f_equal. injection H as H1 H2 H3. apply vec_eq; apply (Rmult_eq_reg_l d'); lra.
    + right. f_equal. injection H as H1 H2 H3. apply vec_eq; cbn; apply (Rmult_eq_reg_l d'); lra.
  - intros [[-> ->]|[[= -> ->]|[= -> ->]]]; vring.
Qed.
(** So a null error does not mean that the planes are the same: all the planes that contain
    the center of the camera have it. *)
Theorem C65_plane_refuted :
  exists world camera, is_unit (pl_normal world) /\ is_unit (pl_normal camera) /\
    cos_angle (transform_plane (plane_camera_to_world id4) world) camera = 0 /\
    plane_residual (plane_camera_to_world id4) world camera = v0.
Proof.
  pose proof id4_rigid as R.
  exists (mkPlane (mkV 1 0 0) 0), (mkPlane (mkV 0 1 0) 0).
  assert (P : proper (mkPlane (mkV 1 0 0) 0)) by (unfold proper, is_unit, dot; cbn; lra).
  split; [easy|]. split; [unfold is_unit, dot; cbn; lra|].
  rewrite (transform_plane_value id4 _ R P).
  unfold plane_residual. rewrite (transform_plane_value id4 _ R P). unfold id4, cos_angle. cbn [pl_normal pl_d lin col].
  split; [gunfold; lra|]. vring.
Qed.
Print Assumptions C65_pixel.
Print Assumptions C65_metric.
Print Assumptions C65_plane.
Example C65_example :
  seen_at 500 500 320 240 (mkV 200 0 1000) 420 240 /\
  is_unit (pl_normal (transform_plane (plane_camera_to_world id4) (mkPlane (mkV 0 0 1) (-1000)))).
Proof.
  split; [unfold seen_at; cbn; lra|].
  rewrite transform_plane_value; [|exact id4_rigid|unfold proper, is_unit, dot; cbn; lra].
  unfold is_unit, id4. cbn [pl_normal lin]. gunfold. lra.
Qed.

(** * Lines (C66) *)

Lemma lagrange a b : sqn (cross a b) = sqn a * sqn b - dot a b * dot a b.
Proof. destruct a, b. v3unfold. cbn. ring. Qed.
(** The points found are on their lines, and no other pair of points of the lines is closer;
    they are not found exactly when the directions are parallel. *)
Theorem C66_closest_points :
  forall p1 d1 p2 d2,
  (closest_points p1 d1 p2 d2 = None <-> cross d1 d2 = v0) /\
  forall a b, closest_points p1 d1 p2 d2 = Some (a, b) ->
  on_line p1 d1 a /\ on_line p2 d2 b /\
  dot (vsub a b) d1 = 0 /\ dot (vsub a b) d2 = 0 /\
  forall x y, on_line p1 d1 x -> on_line p2 d2 y -> dist a b <= dist x y.
Proof.
  intros p1 d1 p2 d2. unfold closest_points. destruct (vec_eq_dec (cross d1 d2) v0) as [E|N].
  - split; [easy|discriminate].
  - split; [easy|]. intros a b [= <- <-].
    set (n := cross d1 d2) in *. set (t1 := dot (vsub p2 p1) (cross d2 n) / dot d1 (cross d2 n)).
    set (t2 := dot (vsub p1 p2) (cross d1 n) / dot d2 (cross d1 n)).
    assert (S : 0 < sqn n).
    { pose proof (sqn_nonneg n). destruct (Req_EM_T (sqn n) 0) as [Z|Z]; [|lra]. now apply sqn_zero in Z. }
    assert (D1 : dot d1 (cross d2 n) = sqn n) by (unfold n; clear; destruct d1, d2; v3unfold; cbn; ring).
    assert (D2 : dot d2 (cross d1 n) = - sqn n) by (unfold n; clear; destruct d1, d2; v3unfold; cbn; ring).
    assert (T1 : t1 * sqn n = dot (vsub p2 p1) (cross d2 n)) by (unfold t1; rewrite D1; field; lra).
    assert (T2 : t2 * sqn n = - dot (vsub p1 p2) (cross d1 n)) by (unfold t2; rewrite D2; field; lra).
    set (w := vsub p1 p2).
    assert (W : forall d, dot (vsub (vadd p1 (vscal t1 d1)) (vadd p2 (vscal t2 d2))) d
                     = dot w d + t1 * dot d1 d - t2 * dot d2 d).
    { intros d. unfold w. clear. destruct p1, p2, d1, d2, d. v3unfold. cbn. ring. }
    assert (O1 : dot (vsub (vadd p1 (vscal t1 d1)) (vadd p2 (vscal t2 d2))) d1 = 0).
    { rewrite W. apply (Rmult_eq_reg_r (sqn n)); [|lra].
      replace ((dot w d1 + t1 * dot d1 d1 - t2 * dot d2 d1) * sqn n)
        with (dot w d1 * sqn n + (t1 * sqn n) * dot d1 d1 - (t2 * sqn n) * dot d2 d1) by ring.
      rewrite T1, T2. unfold w, n. clear. destruct p1, p2, d1, d2. v3unfold. cbn. ring. }
    assert (O2 : dot (vsub (vadd p1 (vscal t1 d1)) (vadd p2 (vscal t2 d2))) d2 = 0).
    { rewrite W. apply (Rmult_eq_reg_r (sqn n)); [|lra].
      replace ((dot w d2 + t1 * dot d1 d2 - t2 * dot d2 d2) * sqn n)
        with (dot w d2 * sqn n + (t1 * sqn n) * dot d1 d2 - (t2 * sqn n) * dot d2 d2) by ring.
      rewrite T1, T2. unfold w, n. clear. destruct p1, p2, d1, d2. v3unfold. cbn. ring. }
    split; [now exists t1|]. split; [now exists t2|]. split; [easy|]. split; [easy|].
    intros x y [s1 ->] [s2 ->].
    set (v := vsub (vadd p1 (vscal t1 d1)) (vadd p2 (vscal t2 d2))) in *.
    set (u := vsub (vscal (s1 - t1) d1) (vscal (s2 - t2) d2)).
    unfold dist, norm. apply sqrt_le_1_alt. fold v.
    replace (vsub (vadd p1 (vscal s1 d1)) (vadd p2 (vscal s2 d2))) with (vadd v u)
      by (unfold v, u; clear; vring).
    unfold sqn. rewrite !dot_add_l, !dot_add_r, (dot_comm u v).
    assert (Z : dot v u = 0) by (unfold u; rewrite dot_sub_r, !dot_scal_r, O1, O2; ring).
    rewrite Z. pose proof (sqn_nonneg u). unfold sqn in *. lra.
Qed.
(** The vector between the lines: its length is the distance between them, for unit
    directions, parallel or not. *)
Theorem C66_line_distance :
  forall p1 d1 p2 d2, is_unit d1 -> is_unit d2 ->
  (forall x y, on_line p1 d1 x -> on_line p2 d2 y -> norm (signed_line_distance p1 d1 p2 d2) <= dist x y) /\
  (exists x y, on_line p1 d1 x /\ on_line p2 d2 y /\ dist x y = norm (signed_line_distance p1 d1 p2 d2)).
Proof.
  intros p1 d1 p2 d2 U1 U2. unfold signed_line_distance.
  destruct (C66_closest_points p1 d1 p2 d2) as [A B].
  destruct (closest_points p1 d1 p2 d2) as [[a b]|] eqn:E.
  - destruct (B a b eq_refl) as [La [Lb [_ [_ M]]]]. split; [exact M|]. exists a, b. auto.
  - assert (P : cross d1 d2 = v0) by now apply A.
    set (w := vsub p1 p2).
    (* parallel unit vectors *)
    assert (D : d2 = vscal (dot d1 d2) d1).
    { assert (H : cross d1 (cross d1 d2) = v0) by (rewrite P; vring).
      assert (G : cross d1 (cross d1 d2) = vsub (vscal (dot d1 d2) d1) (vscal (dot d1 d1) d2))
        by (clear; destruct d1, d2; vring).
      rewrite G in H. unfold is_unit in U1. rewrite U1 in H. injection H as H1 H2 H3. apply vec_eq; cbn in *; lra. }
    assert (N : sqn (cross d1 w) = sqn w - dot d1 w * dot d1 w).
    { rewrite lagrange. unfold sqn at 1. unfold is_unit in U1. rewrite U1. ring. }
    assert (L : forall k, sqn (cross d1 w) <= sqn (vadd w (vscal k d1)) /\ sqn (vadd w (vscal (- dot d1 w) d1)) = sqn (cross d1 w)).
    { intros k. assert (Q : forall k, sqn (vadd w (vscal k d1)) = sqn w + 2 * k * dot d1 w + k * k).
      { intros k'. unfold sqn. rewrite !dot_add_l, !dot_add_r, !dot_scal_l, !dot_scal_r. unfold is_unit in U1.
        rewrite U1, (dot_comm w d1). ring. }
      rewrite !Q, N. set (m := dot d1 w). set (u := sqn w). clearbody m u. clear.
      pose proof (Rle_0_sqr (k + m)). unfold Rsqr in *. split; [lra|ring]. }
    split.
    + intros x y [s1 ->] [s2 ->]. unfold dist, norm. apply sqrt_le_1_alt.
      replace (vsub (vadd p1 (vscal s1 d1)) (vadd p2 (vscal s2 d2))) with (vadd w (vscal (s1 - s2 * dot d1 d2) d1)); [apply L|].
      rewrite D at 2. unfold w. clear. vring.
    + exists (vadd p1 (vscal (- dot d1 w) d1)), (vadd p2 (vscal 0 d2)).
      split; [eexists; reflexivity|]. split; [eexists; reflexivity|]. unfold dist, norm. f_equal.
      rewrite <- (proj2 (L 0)). f_equal. unfold w. clear. vring.
Qed.
(** For parallel lines the vector is not the one that joins them: it is perpendicular to it. *)
Theorem C66_parallel_direction :
  forall p1 d p2, is_unit d ->
  dot (signed_line_distance p1 d p2 d) (vsub p1 p2) = 0 /\ dot (signed_line_distance p1 d p2 d) d = 0.
Proof.
  intros p1 d p2 U. assert (C : cross d d = v0) by (clear; vring).
  unfold signed_line_distance. destruct (closest_points p1 d p2 d) as [[a b]|] eqn:E.
  - apply (proj1 (C66_closest_points p1 d p2 d)) in C. congruence.
  - clear. split; destruct p1, p2, d; v3unfold; cbn; ring.
Qed.
Print Assumptions C66_closest_points.
Print Assumptions C66_line_distance.
Example C66_example :
  signed_line_distance (mkV 0 0 0) (mkV 1 0 0) (mkV 5 3 7) (mkV 0 1 0) = mkV 0 0 (-7) /\
  signed_line_distance (mkV 0 0 0) (mkV 1 0 0) (mkV 5 3 0) (mkV 1 0 0) = mkV 0 0 (-3).
Proof.
  unfold signed_line_distance, closest_points.
  split; destruct (vec_eq_dec _ _) as [E|E].
  - exfalso. injection E as E1 E2 E3. lra.
  - apply vec_eq; gunfold; field; lra.
  - vring.
  - exfalso. apply E. vring.
Qed.
