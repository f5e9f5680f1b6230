(** Properties of the inverse depth coordinates, of the derivatives of the changes of
    coordinates, and of angles and segments. *)
From Coq Require Import Lra Psatz.
From Coquelicot Require Import Coquelicot.
From Verif Require Import GeometryProps.
From Verif Require Import PlaneSegmentModel InverseDepthSpec.
From Verif Require Import Vec3.
Local Open Scope R_scope.

(** ** Spherical coordinates *)

Lemma norm_polar c : norm c = sqrt (vz c * vz c + sqrt (vx c * vx c + vy c * vy c) * sqrt (vx c * vx c + vy c * vy c)).
Proof. unfold norm, sqn, dot. f_equal. rewrite sqrt_sqrt by nra. ring. Qed.
Lemma spherical_round c : cartesian_from (spherical_from c) = c.
Proof.
  unfold cartesian_from, spherical_from. cbn [vx vy vz]. rewrite norm_polar.
  set (r := sqrt (vx c * vx c + vy c * vy c)).
  destruct (atan2_polar r (vz c)) as [C S]. destruct (atan2_polar (vy c) (vx c)) as [C' S']. fold r in C', S'.
  apply vec_eq; cbn [vx vy vz]; rewrite ?S; assumption.
Qed.
Lemma sqrt_square a : 0 <= a -> sqrt (a * a) = a.
Proof. intros H. now apply sqrt_Rsqr. Qed.
Lemma bearing_unit t f : sqn (cartesian_from (mkV 1 t f)) = 1.
Proof.
  unfold cartesian_from, sqn, dot. cbn [vx vy vz]. pose proof (sin2_cos2 t) as A. pose proof (sin2_cos2 f) as B. unfold Rsqr in *.
  replace (1 * sin t * cos f * (1 * sin t * cos f) + 1 * sin t * sin f * (1 * sin t * sin f) + 1 * cos t * (1 * cos t))
    with (sin t * sin t * (sin f * sin f + cos f * cos f) + cos t * cos t) by ring. rewrite B. lra.
Qed.
Lemma cartesian_scal k t f : cartesian_from (mkV k t f) = vscal k (cartesian_from (mkV 1 t f)).
Proof. unfold cartesian_from. apply vec_eq; cbn; ring. Qed.
Lemma cartesian_round r t f : 0 < r -> 0 < t < PI -> - PI < f <= PI ->
  spherical_from (cartesian_from (mkV r t f)) = mkV r t f.
Proof.
  intros R T F. assert (S : 0 < sin t) by (apply sin_gt_0; lra).
  unfold spherical_from. apply vec_eq; cbn [vx vy vz].
  - rewrite cartesian_scal, norm_scal. unfold norm. rewrite bearing_unit, sqrt_1, Rabs_right by lra. ring.
  - unfold cartesian_from; cbn [vx vy vz].
    replace (sqrt _) with (r * sin t).
    + rewrite atan2_unique; lra.
    + symmetry. transitivity (sqrt (r * sin t * (r * sin t))); [|apply sqrt_square; nra]. f_equal. pose proof (sin2_cos2 f) as B. unfold Rsqr in B.
      replace (r * sin t * cos f * (r * sin t * cos f) + r * sin t * sin f * (r * sin t * sin f))
        with (r * sin t * (r * sin t) * (sin f * sin f + cos f * cos f)) by ring. rewrite B. ring.
  - unfold cartesian_from; cbn [vx vy vz]. apply atan2_unique; [nra|lra].
Qed.

(** ** C49: inverse depth points *)

Lemma spherical_accepted o c k : 0 <= k ->
  make_idp o k (vy (spherical_from c)) (vz (spherical_from c))
    = Built (mkIdp o k (vy (spherical_from c)) (vz (spherical_from c))).
Proof.
  intros K. unfold make_idp, spherical_from. cbn [vx vy vz].
  pose proof (atan2_range (vy c) (vx c)). pose proof (atan2_range (sqrt (vx c * vx c + vy c * vy c)) (vz c)).
  pose proof (atan2_nonneg (sqrt (vx c * vx c + vy c * vy c)) (vz c) (sqrt_pos _)).
  repeat match goal with |- context [if Rlt_dec ?a ?b then _ else _] => destruct (Rlt_dec a b); [exfalso; lra|] end.
  reflexivity.
Qed.
Lemma norm_vsub_nz a b : a <> b -> 0 < norm (vsub a b).
Proof.
  intros N. destruct (Rle_lt_or_eq_dec 0 (norm (vsub a b)) (norm_nonneg _)) as [L|E]; [easy|].
  exfalso. apply N. symmetry in E. apply norm_zero in E. v3des. v3unfold. injection E as. f_equal; lra.
Qed.
(** A world point seen from another point always gives an inverse depth point, which gives
    the world point back; its inverse depth is the inverse of the distance. *)
Theorem C49_recovers_the_point :
  forall point origin : vec, point <> origin ->
  exists p, from_cartesian point origin = Built p /\
            first p = origin /\ to_world p = Some point /\
            inverse_depth p = 1 / dist point origin /\
            0 < inverse_depth p /\ 0 <= theta p <= PI /\ - PI <= phi p <= PI.
Proof.
  intros point origin N. pose proof (norm_vsub_nz _ _ N) as P. unfold from_cartesian.
  set (c := vsub point origin) in *. assert (E : vx (spherical_from c) = norm c) by reflexivity. rewrite E.
  destruct (Req_EM_T (norm c) 0) as [Z|_]; [lra|].
  assert (K : 0 < 1 / norm c) by (apply Rdiv_lt_0_compat; lra).
  rewrite spherical_accepted by lra. eexists. split; [reflexivity|]. cbn [first inverse_depth theta phi].
  split; [reflexivity|]. split; [|split; [reflexivity|split; [assumption|]]].
  - unfold to_world, bearing. cbn [first inverse_depth theta phi]. destruct (Req_EM_T (1 / norm c) 0) as [Z|_]; [lra|].
    f_equal.
    assert (V : vscal (/ (1 / norm c)) (cartesian_from (mkV 1 (vy (spherical_from c)) (vz (spherical_from c)))) = c).
    { replace (/ (1 / norm c)) with (norm c) by (field; lra). rewrite <- cartesian_scal. exact (spherical_round c). }
    rewrite V. unfold c. v3ring.
  - unfold spherical_from. cbn [vx vy vz].
    pose proof (atan2_range (vy c) (vx c)). pose proof (atan2_range (sqrt (vx c * vx c + vy c * vy c)) (vz c)).
    pose proof (atan2_nonneg (sqrt (vx c * vx c + vy c * vy c)) (vz c) (sqrt_pos _)). lra.
Qed.
Lemma vadd_sub a b : vsub (vadd a b) a = b.
Proof. v3ring. Qed.
(** A point is built from its parameters exactly when the inverse depth is not negative, the
    elevation is in [0, PI] and the azimuth in [-PI, PI]; it has these parameters. *)
Theorem C49_constructor : forall o k t f p,
  make_idp o k t f = Built p <-> 0 <= k /\ 0 <= t <= PI /\ - PI <= f <= PI /\ p = mkIdp o k t f.
Proof.
  intros o k t f p. unfold make_idp.
  repeat match goal with |- context [if Rlt_dec ?a ?b then _ else _] => destruct (Rlt_dec a b); [split; [discriminate|]; intros (? & ? & ? & _); exfalso; lra|] end.
  split; [intros [= <-]; repeat split; lra|]. intros (_ & _ & _ & ->). reflexivity.
Qed.
Print Assumptions C49_constructor.
(** The parameters are given back by the world point, out of the poles of the sphere. *)
Theorem C49_recovers_the_parameters :
  forall p w, 0 < inverse_depth p -> 0 < theta p < PI -> - PI < phi p <= PI ->
  to_world p = Some w -> from_cartesian w (first p) = Built p.
Proof.
  intros p w K T F H. unfold to_world in H. destruct (Req_EM_T (inverse_depth p) 0) as [Z|_]; [lra|].
  injection H as <-. unfold from_cartesian. rewrite vadd_sub. unfold bearing. rewrite <- cartesian_scal.
  assert (I : 0 < / inverse_depth p) by now apply Rinv_0_lt_compat.
  rewrite cartesian_round by assumption. cbn [vx vy vz].
  destruct (Req_EM_T (/ inverse_depth p) 0) as [Z|_]; [lra|].
  replace (1 / / inverse_depth p) with (inverse_depth p) by (field; lra).
  unfold make_idp. repeat match goal with |- context [if Rlt_dec ?a ?b then _ else _] => destruct (Rlt_dec a b); [exfalso; lra|] end.
  now destruct p.
Qed.
(** At a pole of the sphere the angle phi is lost. *)
Theorem C49_recovers_the_parameters_at_the_poles_refuted :
  exists p w, 0 < inverse_depth p /\ 0 <= theta p <= PI /\ - PI < phi p <= PI /\
    to_world p = Some w /\ from_cartesian w (first p) <> Built p.
Proof.
  pose proof PI_RGT_0. exists (mkIdp v0 1 0 1), (mkV 0 0 1). cbn [inverse_depth theta phi first].
  assert (1 < PI) by (pose proof PI2_1; unfold PI2 in *; lra).
  split; [lra|]. split; [lra|]. split; [lra|]. split.
  - unfold to_world, bearing, cartesian_from. cbn. destruct (Req_EM_T 1 0); [lra|]. f_equal.
    rewrite sin_0, cos_0. unfold vadd, vscal, v0. cbn. f_equal; field.
  - unfold from_cartesian. assert (E : vsub (mkV 0 0 1) v0 = mkV 0 0 1) by (unfold vsub, v0; cbn; f_equal; ring). rewrite E.
    assert (S : spherical_from (mkV 0 0 1) = mkV 1 0 0).
    { unfold spherical_from, norm, sqn, dot. cbn [vx vy vz].
      replace (0 * 0 + 0 * 0 + 1 * 1) with 1 by ring. replace (0 * 0 + 0 * 0) with 0 by ring. rewrite sqrt_1, sqrt_0.
      unfold atan2. destruct (Rlt_dec 0 1) as [_|]; [|lra]. destruct (Rlt_dec 0 0) as [|_]; [lra|].
      replace (0 / 1) with 0 by field. now rewrite atan_0. }
    rewrite S. cbn [vx vy vz]. destruct (Req_EM_T 1 0); [lra|]. unfold make_idp.
    repeat match goal with |- context [if Rlt_dec ?a ?b then _ else _] => destruct (Rlt_dec a b); [congruence|] end.
    intros [= X]. lra.
Qed.
(** The closest estimation is never closer than 10^9 of the first observation. *)
Lemma min_inverse a : 0 < a -> 0 < Rmin a (1 / 10 ^ 9) <= 1 / 10 ^ 9.
Proof.
  intros H. split; [|apply Rmin_r]. apply Rmin_glb_lt; [assumption|]. apply Rdiv_lt_0_compat; [lra|]. apply pow_lt. lra.
Qed.
Lemma far_away k : 0 < k -> k <= 1 / 10 ^ 9 -> 10 ^ 9 <= / k.
Proof.
  intros P L. assert (0 < 10 ^ 9) by (apply pow_lt; lra). set (b := 10 ^ 9) in *. clearbody b.
  apply Rinv_le_contravar in L; [|assumption]. replace (/ (1 / b)) with b in L by (field; lra). exact L.
Qed.
Lemma estimation_dist p k e : k <> 0 -> estimation p k = Some e ->
  dist e (first p) = / Rabs k /\ e = vadd (first p) (vscal (/ k) (bearing p)).
Proof.
  intros K H. unfold estimation in H. destruct (Req_EM_T k 0); [easy|]. injection H as <-. split; [|reflexivity].
  unfold dist. rewrite vadd_sub, norm_scal. unfold norm, bearing. rewrite bearing_unit, sqrt_1, Rmult_1_r.
  now rewrite Rabs_inv.
Qed.
Theorem C49_closest_is_far :
  forall p deviation e, 0 <= inverse_depth p -> 0 <= deviation ->
  closest_estimation p deviation = Some e -> 10 ^ 9 <= dist e (first p).
Proof.
  intros p s e K D H. unfold closest_estimation in H.
  assert (0 < 10 ^ 9) by (apply pow_lt; lra).
  destruct (Req_dec (inverse_depth p + s * 3) 0) as [Z|Z].
  - exfalso. unfold estimation in H. rewrite Z in H. rewrite Rmin_left in H.
    + destruct (Req_EM_T 0 0); congruence.
    + left. now apply Rdiv_lt_0_compat; [lra|].
  - destruct (min_inverse (inverse_depth p + s * 3)) as [M1 M2]; [lra|].
    apply estimation_dist in H as [-> _]; [|lra]. rewrite Rabs_right by lra.
    now apply far_away.
Qed.
(** The furthest estimation is as far, or behind the first observation. *)
Theorem C49_furthest_is_far_or_behind :
  forall p deviation e, furthest_estimation p deviation = Some e ->
  10 ^ 9 <= dist e (first p) \/ in_front (first p) (vneg (bearing p)) e.
Proof.
  intros p s e H. unfold furthest_estimation in H. assert (0 < 10 ^ 9) by (apply pow_lt; lra).
  destruct (Rtotal_order (inverse_depth p - s * 3) 0) as [Z|[Z|Z]].
  - right. rewrite Rmin_left in H by (left; apply Rlt_trans with 0; [assumption|]; apply Rdiv_lt_0_compat; lra).
    apply estimation_dist in H as [_ ->]; [|lra]. exists (- / (inverse_depth p - s * 3)). split.
    + pose proof (Rinv_lt_0_compat _ Z). lra.
    + v3ring.
  - exfalso. unfold estimation in H. rewrite Z in H. rewrite Rmin_left in H.
    + destruct (Req_EM_T 0 0); congruence.
    + left. now apply Rdiv_lt_0_compat; [lra|].
  - left. destruct (min_inverse (inverse_depth p - s * 3)) as [M1 M2]; [lra|].
    apply estimation_dist in H as [-> _]; [|lra]. rewrite Rabs_right by lra.
    now apply far_away.
Qed.
(** So the estimated point is not between the two estimations, even with a small deviation. *)
Theorem C49_bracket_refuted :
  exists p deviation w f c,
    0 < inverse_depth p /\ 0 < deviation /\ 3 * deviation < inverse_depth p /\
    to_world p = Some w /\ furthest_estimation p deviation = Some f /\ closest_estimation p deviation = Some c /\
    dist w (first p) < dist c (first p).
Proof.
  set (p := mkIdp v0 1 (PI / 2) 0).
  assert (W : exists w, to_world p = Some w /\ dist w v0 = 1).
  { unfold to_world. cbn [inverse_depth p]. destruct (Req_EM_T 1 0); [lra|]. eexists. split; [reflexivity|].
    cbn [first p]. unfold dist. rewrite vadd_sub, norm_scal. unfold norm, bearing. rewrite bearing_unit, sqrt_1, Rinv_1, Rabs_R1. ring. }
  destruct W as [w [W D]].
  assert (P9 : 10 ^ 9 = 1000000000) by ring.
  assert (M : Rmin (1 - 1 / 10 * 3) (1 / 10 ^ 9) = 1 / 10 ^ 9) by (rewrite P9; apply Rmin_right; lra).
  assert (M' : Rmin (1 + 1 / 10 * 3) (1 / 10 ^ 9) = 1 / 10 ^ 9) by (rewrite P9; apply Rmin_right; lra).
  exists p, (1 / 10), w, (vadd v0 (vscal (/ (1 / 10 ^ 9)) (bearing p))), (vadd v0 (vscal (/ (1 / 10 ^ 9)) (bearing p))).
  cbn [inverse_depth p]. split; [lra|]. split; [lra|]. split; [lra|]. split; [exact W|].
  assert (E : estimation p (1 / 10 ^ 9) = Some (vadd v0 (vscal (/ (1 / 10 ^ 9)) (bearing p)))).
  { unfold estimation. destruct (Req_EM_T (1 / 10 ^ 9) 0) as [X|_]; [rewrite P9 in X; lra|]. reflexivity. }
  split; [|split].
  - unfold furthest_estimation. cbn [inverse_depth p]. now rewrite M.
  - unfold closest_estimation. cbn [inverse_depth p]. now rewrite M'.
  - cbn [first p]. rewrite D. apply estimation_dist in E; [|rewrite P9; lra]. destruct E as [E _]. cbn [first p] in E. rewrite E, P9.
    rewrite Rabs_right by lra. lra.
Qed.
Lemma rigid_point m p : rigid4 m -> point_to_world m p = vadd (col m) (mvmul (lin m) p).
Proof.
  intros [_ [R K]]. unfold point_to_world, mulv4, homogeneous. cbn [hd4 tl4].
  destruct (mvmul (lin m) p), (col m). v3unfold. f_equal; ring.
Qed.
Lemma screen_direction_value fx fy cx cy ki x y : fx <> 0 -> fy <> 0 -> is_inverse3 (intrinsics fx fy cx cy) ki ->
  screen_direction ki x y = mkV ((x - cx) / fx) ((y - cy) / fy) 1.
Proof.
  intros A B I. rewrite (inverse3_unique _ _ _ I (inverse_intrinsics_ok fx fy cx cy A B)).
  unfold screen_direction, inverse_intrinsics, mvmul, dot. cbn. apply vec_eq; cbn; field; auto.
Qed.
(** A point built from a pixel without depth is accepted, is in front of the camera, half of
    the baseline gives its inverse depth, and it is seen again at the same pixel. *)
Theorem C49_seen_at_its_pixel :
  forall fx fy cx cy ki q t w2c x y,
  fx <> 0 -> fy <> 0 -> is_inverse3 (intrinsics fx fy cx cy) ki ->
  unit_quat q -> world_to_camera (camera_to_world q t) w2c ->
  exists p w, from_screen ki (camera_to_world q t) x y = Built p /\ to_world p = Some w /\
    dist w (first p) = 2000 /\
    first p = point_to_world (camera_to_world q t) v0 /\
    exists depth, 0 < depth /\
      camera_to_screen (intrinsics fx fy cx cy) (point_to_camera w2c w) = Some (mkV x y depth).
Proof.
  intros fx fy cx cy ki q t w2c x y A B I U W. pose proof (camera_to_world_rigid q t U) as R.
  set (m := camera_to_world q t) in *. set (c := screen_direction ki x y).
  pose proof (screen_direction_value fx fy cx cy ki x y A B I) as D. fold c in D.
  assert (Lc : vz c = 1) by (now rewrite D).
  assert (N : point_to_world m c <> col m).
  { rewrite rigid_point by assumption. intros E.
    assert (Z : mvmul (lin m) c = v0) by (apply (f_equal (fun v => vsub v (col m))) in E; rewrite vadd_sub in E; rewrite E; v3ring).
    assert (Z' : c = v0). { rewrite <- (orthogonal_inv (lin m) c) by apply R. rewrite Z. v3ring. }
    rewrite Z' in Lc. cbn in Lc. lra. }
  destruct (C49_recovers_the_point _ _ N) as [p0 [H0 [F0 [T0 [I0 [P0 _]]]]]].
  unfold from_screen. fold c. rewrite H0.
  set (p := mkIdp (first p0) (inverse_depth_baseline / 2) (theta p0) (phi p0)).
  assert (BL : inverse_depth_baseline / 2 = 1 / 2000) by (unfold inverse_depth_baseline; lra).
  exists p, (vadd (first p0) (vscal 2000 (bearing p))). split; [reflexivity|].
  assert (E : to_world p = Some (vadd (first p0) (vscal 2000 (bearing p)))).
  { unfold to_world. cbn [inverse_depth p first]. destruct (Req_EM_T (inverse_depth_baseline / 2) 0) as [Z|_]; [lra|].
    replace (/ (inverse_depth_baseline / 2)) with 2000 by (rewrite BL; field). reflexivity. }
  split; [exact E|]. split.
  { unfold dist. cbn [first p]. rewrite vadd_sub, norm_scal. unfold norm, bearing. rewrite bearing_unit, sqrt_1, Rabs_right; lra. }
  split.
  { cbn [first p]. rewrite F0, rigid_point by assumption. v3ring. }
  unfold to_world in T0. destruct (Req_EM_T (inverse_depth p0) 0) as [Z|_]; [lra|].
  apply (f_equal some_of) in T0. cbn [some_of] in T0.
  assert (S : vscal (/ inverse_depth p0) (bearing p0) = mvmul (lin m) c).
  { rewrite rigid_point in T0 by assumption. rewrite F0 in T0.
    apply (f_equal (fun v => vsub v (col m))) in T0. now rewrite !vadd_sub in T0. }
  assert (Bq : bearing p = bearing p0) by reflexivity.
  set (k := 2000 * inverse_depth p0).
  assert (G : vadd (first p0) (vscal 2000 (bearing p)) = point_to_world m (vscal k c)).
  { rewrite rigid_point by assumption. rewrite mvmul_scal, <- S, F0, Bq. unfold k. generalize (bearing p0). intros b.
    v3des. v3unfold. f_equal; field; lra. }
  rewrite G. destruct (C46_inverse q t w2c (vscal k c) U W) as [G' _]. fold m in G'. rewrite G'.
  assert (K : 0 < k) by (unfold k; lra). exists k. split; [exact K|].
  rewrite D. rewrite to_screen_value by (cbn [vz vscal]; lra). cbn [vx vy vz vscal]. apply f_equal, vec_eq; cbn; field; repeat split; lra.
Qed.

(** ** C68: the jacobians are the derivatives *)

Lemma jacobian_unique f j j' p : is_jacobian f j p -> is_jacobian f j' p -> j = j'.
Proof.
  intros H H'. assert (R : forall u, dot (r0 j) u = dot (r0 j') u /\ dot (r1 j) u = dot (r1 j') u /\ dot (r2 j) u = dot (r2 j') u).
  { intros u. destruct (H u) as [A [B C]], (H' u) as [A' [B' C']].
    apply is_derive_unique in A, A', B, B', C, C'. split; [|split]; congruence. }
  assert (V : forall a b, (forall u, dot a u = dot b u) -> a = b).
  { intros a b Q. pose proof (Q (mkV 1 0 0)) as Q1. pose proof (Q (mkV 0 1 0)) as Q2. pose proof (Q (mkV 0 0 1)) as Q3.
    v3des. v3unfold. f_equal; lra. }
  apply mat_eq; apply V; intros u; apply (R u).
Qed.
Lemma jacobian_ext f g j p :
  (forall u, locally 0 (fun t => g (vadd p (vscal t u)) = f (vadd p (vscal t u)))) ->
  is_jacobian f j p -> is_jacobian g j p.
Proof.
  intros E H u. specialize (E u). destruct (H u) as [A [B C]].
  split; [|split].
  - apply (is_derive_ext_loc (fun t => vx (f (vadd p (vscal t u))))); [|exact A]. eapply filter_imp; [|exact E]. cbn. now intros t ->.
  - apply (is_derive_ext_loc (fun t => vy (f (vadd p (vscal t u))))); [|exact B]. eapply filter_imp; [|exact E]. cbn. now intros t ->.
  - apply (is_derive_ext_loc (fun t => vz (f (vadd p (vscal t u))))); [|exact C]. eapply filter_imp; [|exact E]. cbn. now intros t ->.
Qed.
Lemma locally_linear_pos a b : 0 < a -> locally 0 (fun t => 0 < a + t * b).
Proof.
  intros H. apply (locally_pos (fun t => a + t * b) 0 b).
  - auto_derive; [easy|ring].
  - lra.
Qed.
Lemma locally_linear_nz a b : a <> 0 -> locally 0 (fun t => a + t * b <> 0).
Proof.
  intros H. destruct (Rlt_dec 0 a).
  - eapply filter_imp; [|apply (locally_linear_pos a b); assumption]. cbn. intros t ?. lra.
  - eapply filter_imp; [|apply (locally_linear_pos (- a) (- b)); lra]. cbn. intros t ?. lra.
Qed.
Ltac at0 := rewrite ?Rmult_0_l, ?Rplus_0_r, ?Rplus_0_l.

Theorem C68_cartesian :
  forall s, is_jacobian cartesian_from (cartesian_jacobian s) s.
Proof.
  intros s u. unfold cartesian_from, cartesian_jacobian, vadd, vscal, dot. cbn [vx vy vz r0 r1 r2].
  split; [|split]; (auto_derive; [easy|]); at0; ring.
Qed.
Lemma derive_linear a b : is_derive (fun t : R => a + t * b) 0 b.
Proof. auto_derive; [easy|ring]. Qed.
Lemma derive_squares a b c d :
  is_derive (fun t : R => (a + t * b) * (a + t * b) + (c + t * d) * (c + t * d)) 0 (2 * (a * b + c * d)).
Proof. auto_derive; [easy|at0; ring]. Qed.
Lemma derive_norm c u : c <> v0 -> is_derive (fun t : R => norm (vadd c (vscal t u))) 0 (dot c u / norm c).
Proof.
  intros N. assert (P : 0 < sqn c).
  { destruct (Rle_lt_or_eq_dec 0 (sqn c) (sqn_nonneg c)) as [L|E]; [easy|]. exfalso. apply N. now apply sqn_zero. }
  unfold norm. evar_last.
  - apply (is_derive_sqrt (fun t => sqn (vadd c (vscal t u))) 0 (2 * dot c u)).
    + unfold sqn, dot, vadd, vscal. cbn [vx vy vz]. auto_derive; [easy|at0; ring].
    + replace (vadd c (vscal 0 u)) with c by v3ring. exact P.
  - replace (vadd c (vscal 0 u)) with c by v3ring. field. apply Rgt_not_eq, sqrt_lt_R0, P.
Qed.
Lemma horizontal_pos c : 0 < vx c \/ vy c <> 0 -> 0 < vx c * vx c + vy c * vy c.
Proof. intros [H|H]; nra. Qed.
Lemma derive_theta c u : 0 < vx c * vx c + vy c * vy c ->
  is_derive (fun t : R => vy (spherical_from (vadd c (vscal t u)))) 0
    (dot (r1 (spherical_jacobian c)) u).
Proof.
  intros P. unfold spherical_from, spherical_jacobian. cbn [vx vy vz r0 r1 r2 vadd vscal].
  set (S := sqrt (vx c * vx c + vy c * vy c)).
  assert (Sp : 0 < S) by (apply sqrt_lt_R0; exact P).
  assert (SS : S * S = vx c * vx c + vy c * vy c) by (apply sqrt_sqrt; lra).
  evar_last.
  - apply (is_derive_atan2
      (fun t => sqrt ((vx c + t * vx u) * (vx c + t * vx u) + (vy c + t * vy u) * (vy c + t * vy u)))
      (fun t => vz c + t * vz u) 0 ((vx c * vx u + vy c * vy u) / S) (vz u)).
    + evar_last. { apply (is_derive_sqrt _ 0 _ (derive_squares (vx c) (vx u) (vy c) (vy u))). at0. exact P. }
      at0. fold S. field. lra.
    + apply derive_linear.
    + right. at0. fold S. lra.
  - at0. fold S. rewrite <- SS. unfold dot. cbn [vx vy vz]. rewrite !SS.
    replace (vx c * vx c) with (S * S - vy c * vy c) by lra. field. split; nra.
Qed.
Lemma derive_phi c u : 0 < vx c \/ vy c <> 0 ->
  is_derive (fun t : R => vz (spherical_from (vadd c (vscal t u)))) 0 (dot (r2 (spherical_jacobian c)) u).
Proof.
  intros P. unfold spherical_from, spherical_jacobian. cbn [vx vy vz r0 r1 r2 vadd vscal]. pose proof (horizontal_pos c P).
  evar_last.
  - apply (is_derive_atan2 (fun t => vy c + t * vy u) (fun t => vx c + t * vx u) 0 (vy u) (vx u)); try apply derive_linear.
    at0. exact P.
  - at0. unfold dot. cbn [vx vy vz]. field. nra.
Qed.
(** Out of the half plane where the angle phi jumps *)
Theorem C68_spherical :
  forall c, 0 < vx c \/ vy c <> 0 -> is_jacobian spherical_from (spherical_jacobian c) c.
Proof.
  intros c P u. pose proof (horizontal_pos c P) as H. split; [|split].
  - unfold spherical_from. cbn [vx]. evar_last.
    + apply derive_norm. intros E. rewrite E in P. cbn in P. lra.
    + unfold spherical_jacobian, norm, sqn, dot. cbn [vx vy vz r0]. field. apply Rgt_not_eq, sqrt_lt_R0. nra.
  - now apply derive_theta.
  - now apply derive_phi.
Qed.
Theorem C68_from_cartesian :
  forall point origin, 0 < vx (vsub point origin) \/ vy (vsub point origin) <> 0 ->
  is_jacobian (fun q => parameters_of (from_cartesian q origin)) (from_cartesian_jacobian point origin) point.
Proof.
  intros point origin P. set (c := vsub point origin) in *. pose proof (horizontal_pos c P) as H.
  assert (N : c <> v0) by (intros E; rewrite E in P; cbn in P; lra).
  assert (Np : 0 < norm c) by (apply sqrt_lt_R0; unfold sqn, dot; nra).
  apply (jacobian_ext (fun q => let s := spherical_from (vsub q origin) in mkV (/ vx s) (vy s) (vz s))).
  { intros u. assert (L : locally 0 (fun t : R => 0 < norm (vadd c (vscal t u)))).
    { apply (locally_pos _ 0 _ (derive_norm c u N)). replace (vadd c (vscal 0 u)) with c by v3ring. exact Np. }
    eapply filter_imp; [|exact L]. cbv beta zeta. intros t Ht. unfold from_cartesian.
    replace (vsub (vadd point (vscal t u)) origin) with (vadd c (vscal t u)) by (unfold c; v3ring).
    set (e := vadd c (vscal t u)) in *. assert (V : vx (spherical_from e) = norm e) by reflexivity. rewrite V.
    destruct (Req_EM_T (norm e) 0) as [Z|_]; [lra|]. rewrite spherical_accepted.
    - cbn [parameters_of inverse_depth theta phi]. f_equal. field. lra.
    - apply Rlt_le. apply Rdiv_lt_0_compat; lra. }
  intros u. cbn [vx vy vz].
  assert (X : forall t, vsub (vadd point (vscal t u)) origin = vadd c (vscal t u)) by (intros t; unfold c; v3ring).
  assert (NN : norm c * norm c = vx c * vx c + vy c * vy c + vz c * vz c) by (rewrite norm_sqr; reflexivity).
  split; [|split].
  - apply (is_derive_ext (fun t => / norm (vadd c (vscal t u)))).
    + intros t. now rewrite X.
    + evar_last.
      * apply (is_derive_inv _ 0 _ (derive_norm c u N)). replace (vadd c (vscal 0 u)) with c by v3ring. lra.
      * replace (vadd c (vscal 0 u)) with c by v3ring. unfold from_cartesian_jacobian. fold c. cbn [r0].
        assert (Q : sqrt (vx c * vx c + vy c * vy c + vz c * vz c) = norm c) by reflexivity.
        rewrite Q, <- NN. unfold dot. cbn [vx vy vz]. field. lra.
  - apply (is_derive_ext (fun t => vy (spherical_from (vadd c (vscal t u))))).
    + intros t. now rewrite X.
    + exact (derive_theta c u H).
  - apply (is_derive_ext (fun t => vz (spherical_from (vadd c (vscal t u))))).
    + intros t. now rewrite X.
    + evar_last; [exact (derive_phi c u P)|]. unfold from_cartesian_jacobian, spherical_jacobian. fold c. unfold dot. cbn [r2 vx vy vz]. field. lra.
Qed.
(** The other way: a move of the first observation moves the point, and the jacobian for the
    three other parameters is the derivative. *)
Theorem C68_to_world :
  forall p, inverse_depth p <> 0 ->
  is_jacobian (fun s => some_of (to_world (mkIdp (first p) (vx s) (vy s) (vz s)))) (to_world_jacobian p)
    (mkV (inverse_depth p) (theta p) (phi p)) /\
  forall o w, to_world p = Some w -> to_world (mkIdp (vadd (first p) o) (inverse_depth p) (theta p) (phi p)) = Some (vadd w o).
Proof.
  intros p N. split.
  - apply (jacobian_ext (fun s => vadd (first p) (vscal (/ vx s) (cartesian_from (mkV 1 (vy s) (vz s)))))).
    + intros u. eapply filter_imp; [|apply (locally_linear_nz (inverse_depth p) (vx u) N)]. cbn. intros t H.
      unfold to_world. cbn [inverse_depth]. now destruct (Req_EM_T (inverse_depth p + t * vx u) 0).
    + intros u. unfold cartesian_from, to_world_jacobian, vadd, vscal, dot. cbn [vx vy vz r0 r1 r2].
      split; [|split]; (auto_derive; [repeat split; at0; easy|]); at0; field; easy.
  - intros o w H. unfold to_world in *. cbn [inverse_depth first]. destruct (Req_EM_T (inverse_depth p) 0); [easy|].
    injection H as <-. unfold bearing. cbn [theta phi]. f_equal. v3ring.
Qed.
(** The projection on the screen *)
(** Out of the poles the two jacobians undo each other. *)
Theorem C68_jacobians_are_inverse :
  forall point origin, 0 < vx (vsub point origin) * vx (vsub point origin) + vy (vsub point origin) * vy (vsub point origin) ->
  exists p, from_cartesian point origin = Built p /\
    mmul (to_world_jacobian p) (from_cartesian_jacobian point origin) = mid.
Proof.
  intros point origin H. set (c := vsub point origin) in *.
  assert (N : point <> origin).
  { intros E. subst. unfold c, vsub in H. cbn in H. lra. }
  pose proof (norm_vsub_nz _ _ N) as Np. unfold from_cartesian. fold c. fold c in Np.
  assert (V : vx (spherical_from c) = norm c) by reflexivity. rewrite V.
  destruct (Req_EM_T (norm c) 0) as [Z|_]; [lra|].
  assert (K : 0 < 1 / norm c) by (apply Rdiv_lt_0_compat; lra).
  rewrite spherical_accepted by lra. eexists. split; [reflexivity|].
  unfold to_world_jacobian, from_cartesian_jacobian. fold c. cbn [inverse_depth theta phi].
  unfold spherical_from. cbn [vy vz].
  destruct (atan2_polar (vy c) (vx c)) as [C' S'].
  destruct (atan2_polar (sqrt (vx c * vx c + vy c * vy c)) (vz c)) as [C S].
  rewrite <- norm_polar in C, S.
  set (t := atan2 _ (vz c)) in *. set (f := atan2 (vy c) (vx c)) in *.
  assert (Hr : 0 < sqrt (vx c * vx c + vy c * vy c)) by now apply sqrt_lt_R0.
  assert (Er : sqrt (vx c * vx c + vy c * vy c) * sqrt (vx c * vx c + vy c * vy c) = vx c * vx c + vy c * vy c) by (apply sqrt_sqrt; lra).
  assert (Eq : sqrt (vx c * vx c + vy c * vy c + vz c * vz c) = norm c) by reflexivity.
  assert (En : norm c * norm c = vx c * vx c + vy c * vy c + vz c * vz c) by (apply sqrt_sqrt; nra).
  rewrite Eq. clear Eq.
  set (r := sqrt (vx c * vx c + vy c * vy c)) in *. set (n := norm c) in *. clearbody r n. rewrite <- En, <- Er.
  clearbody t f. rewrite <- S', <- C', <- C, <- S. rewrite <- S in Hr.
  assert (St : sin t <> 0) by (intros E; rewrite E in Hr; lra).
  pose proof (sin2_cos2 t) as T. pose proof (sin2_cos2 f) as F. unfold Rsqr in *.
  clear - St T F Np.
  set (a := sin t) in *. set (b := cos t) in *. set (s := sin f) in *. set (k := cos f) in *. clearbody a b s k.
  assert (B : b * b = 1 - a * a) by lra. assert (D : k * k = 1 - s * s) by lra. rewrite ?S.
  assert (G : forall x y, x - y = 0 -> x = y) by (intros; lra).
  unfold mmul, mvmul, mT, mid, dot. cbn [r0 r1 r2 vx vy vz].
  apply f_equal3; apply vec_eq; cbn [vx vy vz]; field [B D]; repeat split; lra.
Qed.
Theorem C68_screen :
  forall fx fy cx cy p, vz p <> 0 ->
  is_jacobian (fun c => some_of (camera_to_screen (intrinsics fx fy cx cy) c)) (screen_jacobian fx fy p) p.
Proof.
  intros fx fy cx cy p N.
  apply (jacobian_ext (fun c => mkV (fx * vx c / vz c + cx) (fy * vy c / vz c + cy) (vz c))).
  - intros u. eapply filter_imp; [|apply (locally_linear_nz (vz p) (vz u) N)]. cbn. intros t H.
    now rewrite to_screen_value.
  - intros u. unfold screen_jacobian, vadd, vscal, dot. cbn [vx vy vz r0 r1 r2].
    split; [|split]; (auto_derive; [repeat split; at0; easy|]); at0; field; easy.
Qed.

(** ** C71: distances of angles *)

Lemma cos_sin_turns x k : cos (x + IZR k * (2 * PI)) = cos x /\ sin (x + IZR k * (2 * PI)) = sin x.
Proof.
  assert (Pos : forall y p, cos (y + IZR (Z.pos p) * (2 * PI)) = cos y /\ sin (y + IZR (Z.pos p) * (2 * PI)) = sin y).
  { intros y p. replace (y + IZR (Z.pos p) * (2 * PI)) with (y + 2 * INR (Pos.to_nat p) * PI).
    - split; [apply cos_period|apply sin_period].
    - rewrite INR_IZR_INZ, positive_nat_Z. ring. }
  destruct k as [|p|p].
  - now rewrite Rmult_0_l, Rplus_0_r.
  - apply Pos.
  - destruct (Pos (x + IZR (Z.neg p) * (2 * PI)) p) as [C S].
    replace (x + IZR (Z.neg p) * (2 * PI) + IZR (Z.pos p) * (2 * PI)) with x in C, S; [easy|].
    replace (IZR (Z.neg p)) with (- IZR (Z.pos p)) by (now rewrite <- opp_IZR). ring.
Qed.
Lemma turn_bounds x : exists k : Z, - PI < x - IZR k * (2 * PI) <= PI.
Proof.
  pose proof PI_RGT_0. set (y := (x - PI) / (2 * PI)). exists (1 - up (- y))%Z.
  destruct (archimed (- y)) as [A B]. rewrite minus_IZR.
  assert (E : x = y * (2 * PI) + PI) by (unfold y; field; lra). rewrite E. split; nra.
Qed.
Lemma angle_distance_value a b k : - PI < a - b - IZR k * (2 * PI) <= PI -> angle_distance a b = a - b - IZR k * (2 * PI).
Proof.
  intros H. unfold angle_distance. set (y := a - b - IZR k * (2 * PI)) in *.
  destruct (cos_sin_turns y k) as [C S]. replace (y + IZR k * (2 * PI)) with (a - b) in C, S by (unfold y; ring).
  rewrite C, S. rewrite <- (atan2_unique 1 y) at 3; [|lra|assumption]. now rewrite !Rmult_1_l.
Qed.
Lemma same_angle_zero k : - (2 * PI) < IZR k * (2 * PI) < 2 * PI -> k = 0%Z.
Proof.
  pose proof PI_RGT_0. intros [A B]. assert (-1 < IZR k < 1) by (split; nra).
  assert ((-1 < k < 1)%Z) by (split; apply lt_IZR; lra). lia.
Qed.
(** The result is the difference of the angles up to a number of turns, in half a turn, and no
    representative of the difference is smaller. *)
Theorem C71_smallest_difference :
  forall a b, - PI < angle_distance a b <= PI /\ same_angle (angle_distance a b) (a - b) /\
    forall d, same_angle d (a - b) -> Rabs (angle_distance a b) <= Rabs d.
Proof.
  intros a b. destruct (turn_bounds (a - b)) as [k K]. rewrite (angle_distance_value a b k K).
  split; [exact K|]. split.
  - exists (- k)%Z. rewrite opp_IZR. ring.
  - intros d [j J]. set (y := a - b - IZR k * (2 * PI)) in *. pose proof PI_RGT_0.
    assert (E : d = y + IZR (k + j) * (2 * PI)) by (rewrite plus_IZR; unfold y; lra). rewrite E.
    destruct (Z.eq_dec (k + j) 0) as [->|N]; [rewrite Rmult_0_l, Rplus_0_r; lra|].
    assert (A : IZR (k + j) <= -1 \/ 1 <= IZR (k + j)).
    { assert ((k + j <= -1 \/ 1 <= k + j)%Z) as [L|L] by lia; [left|right]; now apply IZR_le. }
    assert (Y : Rabs y <= PI) by (apply Rabs_le; lra).
    destruct A as [A|A].
    + assert (y + IZR (k + j) * (2 * PI) <= - PI) by nra. rewrite (Rabs_left1 (y + _)); lra.
    + assert (PI < y + IZR (k + j) * (2 * PI)) by nra. rewrite (Rabs_right (y + _)); lra.
Qed.
Theorem C71_null_iff_same :
  forall a b, angle_distance a b = 0 <-> same_angle a b.
Proof.
  intros a b. pose proof PI_RGT_0. destruct (turn_bounds (a - b)) as [k K]. rewrite (angle_distance_value a b k K). split.
  - intros E. exists k. lra.
  - intros [j J]. assert (k = j); [|subst; lra]. rewrite J in K.
    assert (j - k = 0)%Z; [|lia]. apply same_angle_zero. rewrite minus_IZR. lra.
Qed.
(** Small differences are kept: the parts of two unit vectors are compared without change. *)
Theorem C71_small_difference :
  forall a b, Rabs (a - b) < PI -> angle_distance a b = a - b.
Proof.
  intros a b H. apply Rabs_def2 in H. rewrite (angle_distance_value a b 0); rewrite Rmult_0_l; lra.
Qed.

(** ** C72: distance to a segment *)

Lemma segment_normal_unit a b : a <> b -> is_unit (segment_normal a b) /\ vsub b a = vscal (norm (vsub b a)) (segment_normal a b).
Proof.
  intros N. assert (P : 0 < norm (vsub b a)) by (apply norm_vsub_nz; congruence).
  assert (Q : 0 < sqn (vsub b a)) by (rewrite <- norm_sqr; nra).
  split.
  - apply normalized_is_unit. intros E. rewrite E in Q. v3unfold. lra.
  - unfold segment_normal, vnormalized. destruct (Rlt_dec 0 (sqn (vsub b a))); [|easy].
    set (k := norm (vsub b a)) in *. clearbody k. set (d := vsub b a). clearbody d. v3des. v3unfold. f_equal; field; lra.
Qed.
Lemma foot_minimal s n p x : is_unit n -> on_line s n x ->
  norm (vsub p (vadd s (vscal (dot (vsub p s) n) n))) <= dist p x.
Proof.
  intros U [t ->]. unfold dist, norm. apply sqrt_le_1_alt.
  set (d := vsub p s). set (e := dot d n).
  assert (A : vsub p (vadd s (vscal e n)) = vsub d (vscal e n)) by (unfold d; v3ring).
  assert (B : vsub p (vadd s (vscal t n)) = vsub d (vscal t n)) by (unfold d; v3ring).
  rewrite A, B.
  assert (S : forall k, sqn (vsub d (vscal k n)) = sqn d - 2 * k * dot d n + k * k * dot n n) by (intros k; v3ring).
  rewrite !S. unfold is_unit in U. rewrite U. fold e. clearbody e. generalize (sqn d). intros q.
  pose proof (Rle_0_sqr (t - e)) as Q. unfold Rsqr in Q. lra.
Qed.
(** The distance is the distance to the line of the two end points. *)
Theorem C72_distance_to_the_line :
  forall a b p, a <> b ->
  on_line a (vsub b a) (closest_on_segment a b p) /\
  segment_distance a b p = vsub p (closest_on_segment a b p) /\
  forall x, on_line a (vsub b a) x -> norm (segment_distance a b p) <= dist p x.
Proof.
  intros a b p N. destruct (segment_normal_unit a b N) as [U E].
  assert (P : 0 < norm (vsub b a)) by (apply norm_vsub_nz; congruence).
  split; [|split; [reflexivity|]].
  - unfold closest_on_segment. set (n := segment_normal a b) in *. set (k := norm (vsub b a)) in *. set (e := dot (vsub p a) n).
    exists (e / k). rewrite E. clearbody k e n. clear E. v3des. v3unfold. f_equal; field; lra.
  - intros x [t ->]. apply foot_minimal; [exact U|]. exists (t * norm (vsub b a)).
    rewrite E at 1. generalize (norm (vsub b a)) (segment_normal a b). intros. v3ring.
Qed.
(** So a point in the line of the segment but out of the segment is at a null distance. *)
Theorem C72_distance_to_the_segment_refuted :
  exists a b p, a <> b /\ segment_distance a b p = v0 /\ forall x, on_segment a b x -> 1 <= dist p x.
Proof.
  exists v0, (mkV 1 0 0), (mkV 2 0 0). split; [|split].
  - intros [= E]. lra.
  - assert (S : segment_normal v0 (mkV 1 0 0) = mkV 1 0 0).
    { unfold segment_normal. rewrite normalized_unit; [v3ring|]. v3unfold. ring. }
    unfold segment_distance, closest_on_segment. rewrite S. v3ring.
  - intros x [t [T ->]]. unfold dist, norm.
    apply Rle_trans with (sqrt 1); [rewrite sqrt_1; lra|]. apply sqrt_le_1_alt.
    replace (sqn _) with ((2 - t) * (2 - t)) by (v3unfold; ring). nra.
Qed.

(** ** Examples: the hypotheses hold for non-trivial cases *)
Example C49_example :
  exists p, from_cartesian (mkV 1 2 3) (mkV 1 2 1) = Built p /\ inverse_depth p = / 2 /\ to_world p = Some (mkV 1 2 3).
Proof.
  destruct (C49_recovers_the_point (mkV 1 2 3) (mkV 1 2 1)) as [p [A [_ [B [C _]]]]].
  - intros [= E]. lra.
  - exists p. split; [exact A|]. split; [|exact B]. rewrite C. unfold dist, norm.
    replace (sqn _) with (2 * 2) by (v3unfold; ring). rewrite sqrt_square by lra. lra.
Qed.
Example C68_example :
  is_jacobian (fun q => parameters_of (from_cartesian q v0)) (from_cartesian_jacobian (mkV 3 4 0) v0) (mkV 3 4 0) /\
  vx (r0 (from_cartesian_jacobian (mkV 3 4 0) v0)) = - 3 / 125.
Proof.
  split.
  - apply C68_from_cartesian. left. cbn. lra.
  - unfold from_cartesian_jacobian, vsub, v0. cbn [vx vy vz r0].
    replace ((3 - 0) * (3 - 0) + (4 - 0) * (4 - 0) + (0 - 0) * (0 - 0)) with (5 * 5) by ring.
    rewrite sqrt_square by lra. field.
Qed.
Example C71_example : angle_distance (3 * PI / 4) (- (3 * PI / 4)) = - (PI / 2).
Proof. pose proof PI_RGT_0. rewrite (angle_distance_value _ _ 1); lra. Qed.
Example C72_example : norm (segment_distance v0 (mkV 2 0 0) (mkV 1 3 4)) = 5.
Proof.
  assert (S : segment_normal v0 (mkV 2 0 0) = mkV 1 0 0).
  { destruct (segment_normal_unit v0 (mkV 2 0 0)) as [_ E]; [intros [= E]; lra|].
    assert (norm (vsub (mkV 2 0 0) v0) = 2) as K.
    { unfold norm. replace (sqn _) with (2 * 2) by (v3unfold; ring). apply sqrt_square. lra. }
    rewrite K in E. destruct (segment_normal v0 (mkV 2 0 0)) as [x y z]. unfold vsub, vscal, v0 in E. cbn in E.
    injection E as E1 E2 E3. f_equal; lra. }
  unfold segment_distance, closest_on_segment. rewrite S. unfold norm.
  replace (sqn _) with (5 * 5) by (v3unfold; ring). apply sqrt_square. lra.
Qed.

Print Assumptions C49_recovers_the_point.
Print Assumptions C49_seen_at_its_pixel.
Print Assumptions C68_from_cartesian.
Print Assumptions C68_jacobians_are_inverse.
Print Assumptions C71_smallest_difference.
Print Assumptions C72_distance_to_the_line.
