(** C128: the rectification between two cameras, with the rounding of the machine. *)
From Coq Require Import Reals ZArith Lra Lia Psatz.
From Flocq Require Import Core.
From Verif Require Import RoundedCameraModel RoundedCameraSpec RoundedCameraProps DepthMapModel DepthMapSpec DepthMapProps.
From Verif Require Import RoundedDepthMapModel RoundedDepthMapSpec RoundedDepthMapProps RoundedTransformSpec.
Local Open Scope R_scope.

Lemma coordinate_near f g c v z : 100 <= f <= 10000 -> 100 <= g <= 10000 -> 1 <= c <= 10000 -> 0 <= v <= 10000 -> 1 <= z ->
  Rabs (to_float (to_float (direction f g c v) * z) - at_depth f c z v) <= 13 / 100000000 * ((v + 2 * c) / f * z) /\
  Rabs (at_depth f c z v) <= (v + 2 * c) / f * z.
Proof.
  intros F G C V Z. destruct (direction_close f g c v F G C V) as (Dn & Dw & _). set (h := direction f g c v) in *. set (H := (v - c) / f) in *. set (W := (v + 2 * c) / f) in *.
  assert (Wl : / 10000 <= W). { unfold W. apply Rmult_le_reg_r with f; [lra|]. unfold Rdiv. rewrite Rmult_assoc, Rinv_l by lra. nra. }
  pose proof u_value as UV. pose proof tiny_100 as T.
  assert (Dn' : Rabs (h - H) <= / 100000000000000 * W). { eapply Rle_trans; [exact Dn|]. apply Rmult_le_compat_r; [lra|]. rewrite UV. lra. }
  assert (Hh : Rabs h <= 1001 / 1000 * W). { replace h with (h - H + H) by ring. eapply Rle_trans; [apply Rabs_triang|]. lra. }
  pose proof (float_error h) as E1. set (p := to_float h) in *.
  assert (Ep : Rabs (p - H) <= 61 / 1000000000 * W). { replace (p - H) with ((p - h) + (h - H)) by ring. eapply Rle_trans; [apply Rabs_triang|]. lra. }
  assert (Hp : Rabs p <= 101 / 100 * W). { replace p with (p - H + H) by ring. eapply Rle_trans; [apply Rabs_triang|]. lra. }
  pose proof (float_error (p * z)) as E2. set (X := to_float (p * z)) in *.
  assert (Pz : Rabs (p * z) <= 101 / 100 * (W * z)). { rewrite Rabs_mult, (Rabs_pos_eq z) by lra. rewrite <- Rmult_assoc. apply Rmult_le_compat_r; lra. }
  assert (Wz : / 10000 <= W * z) by nra. unfold at_depth. fold H.
  split.
  - replace (X - z * H) with ((X - p * z) + (p - H) * z) by ring. eapply Rle_trans; [apply Rabs_triang|]. rewrite (Rabs_mult (p - H)), (Rabs_pos_eq z) by lra.
    assert (Rabs (p - H) * z <= 61 / 1000000000 * W * z) by (apply Rmult_le_compat_r; lra). lra.
  - rewrite Rabs_mult, (Rabs_pos_eq z) by lra. rewrite Rmult_comm. apply Rmult_le_compat_r; lra.
Qed.

(** a coordinate of the moved point *)
Lemma moved_near r p q t z : Rabs (vx r) <= 2 -> Rabs (vy r) <= 2 -> Rabs (vz r) <= 2 -> usual_position q -> a_double t -> Rabs t <= 100000 -> 1 <= z ->
  Rabs (vx q - vx p) <= 39 / 100000000 * z -> Rabs (vy q - vy p) <= 39 / 100000000 * z -> vz q = vz p ->
  Rabs (rdot4 r q t 1 - (dot r p + t)) <= 157 / 100000000 * z.
Proof.
  intros A B C P D T Z X Y Ez. destruct (row4_close r q t A B C P D T) as (H & _ & _). rewrite u_value in H.
  assert (M : forall a x, Rabs a <= 2 -> Rabs x <= 39 / 100000000 * z -> Rabs (a * x) <= 78 / 100000000 * z).
  { intros a x Ha Hx. rewrite Rabs_mult. pose proof (Rabs_pos a). pose proof (Rabs_pos x). nra. }
  pose proof (M _ _ A X) as Mx. pose proof (M _ _ B Y) as My.
  replace (rdot4 r q t 1 - (dot r p + t)) with ((rdot4 r q t 1 - (dot r q + t)) + vx r * (vx q - vx p) + vy r * (vy q - vy p)) by (unfold dot; rewrite Ez; ring).
  eapply Rle_trans; [apply Rabs_triang|]. eapply Rle_trans; [apply Rplus_le_compat_r, Rabs_triang|]. lra.
Qed.
(** the projection of two near points *)
Lemma project_near f x X y Y E : 0 < f -> 0 < Y -> Rabs (x - X) <= E -> Rabs (y - Y) <= E -> E <= Y / 500 ->
  Rabs (f * (x / y) - f * (X / Y)) <= 502 / 500 * (E / Y * (f + Rabs (f * (X / Y)))).
Proof.
  intros F Yp Ex Ey EY. assert (E0 : 0 <= E) by (pose proof (Rabs_pos (x - X)); lra). pose proof (Rabs_le_inv _ _ Ey) as Ey'.
  assert (yp : 499 / 500 * Y <= y) by lra. assert (Iy : / y <= 502 / 500 * / Y).
  { apply Rmult_le_reg_r with y; [lra|]. rewrite Rinv_l by lra. replace (502 / 500 * / Y * y) with (502 / 500 * (y / Y)) by (unfold Rdiv; ring).
    assert (499 / 500 <= y / Y) by (apply Rmult_le_reg_r with Y; [lra|]; unfold Rdiv at 2; rewrite Rmult_assoc, Rinv_l by lra; lra). lra. }
  assert (Iy0 : 0 < / y) by (apply Rinv_0_lt_compat; lra).
  replace (f * (x / y) - f * (X / Y)) with ((f * (x - X) - f * (X / Y) * (y - Y)) * / y) by (field; lra).
  rewrite Rabs_mult, (Rabs_pos_eq (/ y)) by lra. set (s := f * (X / Y)) in *.
  assert (N : Rabs (f * (x - X) - s * (y - Y)) <= E * (f + Rabs s)).
  { eapply Rle_trans; [apply Rabs_triang|]. rewrite Rabs_Ropp, !Rabs_mult, (Rabs_pos_eq f) by lra. pose proof (Rabs_pos s).
    assert (f * Rabs (x - X) <= f * E) by (apply Rmult_le_compat_l; lra). assert (Rabs s * Rabs (y - Y) <= Rabs s * E) by (apply Rmult_le_compat_l; lra). lra. }
  replace (502 / 500 * (E / Y * (f + Rabs s))) with ((E * (f + Rabs s)) * (502 / 500 * / Y)) by (unfold Rdiv; ring).
  apply Rmult_le_compat; [apply Rabs_pos|lra|exact N|exact Iy].
Qed.

(** C128: with any second camera, a measure is stored at the pixel that contains a position next to the
    exact projection of the measured point in the first camera: the distance is at most three millionths of
    the sum of the focal and of the distance to the principal point, times the ratio of the two depths. The
    stored depth is the depth of the point in the first camera, within two millionths of the measure and a
    ten-millionth of itself. *)
Theorem C128_transformed : forall fx fy cx cy t row column z, usual_camera fx fy cx cy -> usual_transform t ->
  (0 <= row <= 10000)%Z -> (0 <= column <= 10000)%Z -> usual_depth z -> z <= 30000 -> not_extreme fx fy cx cy row column ->
  let e := moved t (measured fx fy cx cy row column z) in
  2 <= vz e <= 90000 -> z <= 1000 * vz e -> Rabs (seen_x fx cx e) <= 20000 -> Rabs (seen_y fy cy e) <= 20000 ->
  exists x y d, rproject (intrinsics fx fy cx cy) t row column z = Projects (Finite (Zfloor x)) (Finite (Zfloor y)) d /\
    Rabs (x - seen_x fx cx e) <= 3 / 1000000 * (z / vz e * (fx + Rabs (seen_x fx cx e - cx))) /\
    Rabs (y - seen_y fy cy e) <= 3 / 1000000 * (z / vz e * (fy + Rabs (seen_y fy cy e - cy))) /\
    Rabs (d - vz e) <= 2 / 1000000 * z + / 10000000 * vz e.
Proof.
  intros fx fy cx cy t row column z Cam (R & ((Dx & Dy & Dz) & Tx & Ty & Tz) & _ & _) Rw Cl (Fl & Zb) Z3 (Nx & Ny) e Ez Zr Sx Sy.
  pose proof Cam as (_ & Fx & Fy & Cx & Cy).
  assert (Bc : 0 <= IZR column <= 10000) by (split; apply IZR_le; lia). assert (Br : 0 <= IZR row <= 10000) by (split; apply IZR_le; lia).
  destruct (coordinate_near fx fy cx (IZR column) z Fx Fy Cx Bc ltac:(lra)) as (Xn & Xb).
  destruct (coordinate_near fy fx cy (IZR row) z Fy Fx Cy Br ltac:(lra)) as (Yn & Yb).
  assert (V : forall a f, 0 < f -> a <= 3 * f -> a / f * z <= 3 * z).
  { intros a f F A. apply Rmult_le_compat_r; [lra|]. apply Rmult_le_reg_r with f; [lra|]. unfold Rdiv. rewrite Rmult_assoc, Rinv_l by lra. lra. }
  pose proof (V _ fx ltac:(lra) Nx) as Vx. pose proof (V _ fy ltac:(lra) Ny) as Vy. clear V.
  unfold rproject, undistorted. rewrite (precomputed_value _ _ _ _ _ _ Cam).
  set (X := to_float (to_float (direction fx fy cx (IZR column)) * z)) in *. set (Y := to_float (to_float (direction fy fx cy (IZR row)) * z)) in *.
  set (p := measured fx fy cx cy row column z) in *. set (q := mkV X Y z).
  assert (Pq : usual_position q).
  { unfold usual_position, q. cbn [vx vy vz]. split; [|split; [|apply Rabs_le; lra]].
    - replace X with ((X - at_depth fx cx z (IZR column)) + at_depth fx cx z (IZR column)) by ring. eapply Rle_trans; [apply Rabs_triang|]. lra.
    - replace Y with ((Y - at_depth fy cy z (IZR row)) + at_depth fy cy z (IZR row)) by ring. eapply Rle_trans; [apply Rabs_triang|]. lra. }
  assert (Qx : Rabs (vx q - vx p) <= 39 / 100000000 * z) by (change (vx q) with X; change (vx p) with (at_depth fx cx z (IZR column)); lra).
  assert (Qy : Rabs (vy q - vy p) <= 39 / 100000000 * z) by (change (vy q) with Y; change (vy p) with (at_depth fy cy z (IZR row)); lra).
  destruct (R (r0 (lin t)) ltac:(auto)) as (A0 & B0 & C0), (R (r1 (lin t)) ltac:(auto)) as (A1 & B1 & C1), (R (r2 (lin t)) ltac:(auto)) as (A2 & B2 & C2).
  pose proof (moved_near _ p q _ z A0 B0 C0 Pq Dx Tx ltac:(lra) Qx Qy eq_refl) as Mx.
  pose proof (moved_near _ p q _ z A1 B1 C1 Pq Dy Ty ltac:(lra) Qx Qy eq_refl) as My.
  pose proof (moved_near _ p q _ z A2 B2 C2 Pq Dz Tz ltac:(lra) Qx Qy eq_refl) as Mz.
  change (dot (r0 (lin t)) p + vx (col t)) with (vx e) in Mx. change (dot (r1 (lin t)) p + vy (col t)) with (vy e) in My. change (dot (r2 (lin t)) p + vz (col t)) with (vz e) in Mz.
  set (w := rtransformed t q). change (rdot4 (r0 (lin t)) q (vx (col t)) 1) with (vx w) in Mx. change (rdot4 (r1 (lin t)) q (vy (col t)) 1) with (vy w) in My. change (rdot4 (r2 (lin t)) q (vz (col t)) 1) with (vz w) in Mz.
  clearbody w e. assert (Small : 157 / 100000000 * z <= vz e / 500) by lra.
  assert (Wz : 1 <= vz w <= 100000) by (apply Rabs_le_inv in Mz; lra).
  assert (Ep : 0 < vz e) by lra. assert (Fx0 : 0 < fx) by lra. assert (Fy0 : 0 < fy) by lra.
  pose proof (project_near fx _ _ _ _ _ Fx0 Ep Mx Mz Small) as Px. pose proof (project_near fy _ _ _ _ _ Fy0 Ep My Mz Small) as Py.
  unfold seen_x, seen_y in *.
  assert (Zp : 0 < / vz e) by (apply Rinv_0_lt_compat; lra).
  assert (Zl : / 90000 <= z / vz e) by (unfold Rdiv; assert (/ 90000 <= / vz e) by (apply Rinv_le; lra); nra).
  assert (Zu : z / vz e <= 1000) by (unfold Rdiv; apply Rmult_le_reg_r with (vz e); [lra|]; rewrite Rmult_assoc, Rinv_l by lra; lra).
  assert (Rt : forall a, 502 / 500 * (157 / 100000000 * z / vz e * a) = 157 * 502 / 50000000000 * (z / vz e * a)) by (intros; field; lra).
  rewrite Rt in Px, Py. clear Rt.
  assert (Fin : forall f c a b, 100 <= f <= 10000 -> 1 <= c <= 10000 -> Rabs (a + c) <= 20000 ->
    Rabs (b - a) <= 157 * 502 / 50000000000 * (z / vz e * (f + Rabs a)) -> Rabs b <= 100000 /\
    forall s, Rabs (s - (b + c)) <= / 10 ^ 9 -> Rabs (s - (a + c)) <= 3 / 1000000 * (z / vz e * (f + Rabs (a + c - c)))).
  { intros f c a b Ff Fc Ha Hb. replace (a + c - c) with a by ring. set (k := z / vz e) in *. pose proof (Rabs_pos a).
    assert (Aa : Rabs a <= 30000) by (apply Rabs_le; apply Rabs_le_inv in Ha; lra).
    assert (Kl : / 90000 * 100 <= k * (f + Rabs a)) by (apply Rmult_le_compat; lra).
    assert (Ku : k * (f + Rabs a) <= 1000 * 40000) by (apply Rmult_le_compat; lra).
    set (g := k * (f + Rabs a)) in *. split.
    - replace b with ((b - a) + a) by ring. eapply Rle_trans; [apply Rabs_triang|]. lra.
    - intros s Hs. replace (10 ^ 9) with 1000000000 in Hs by ring. replace (s - (a + c)) with ((s - (b + c)) + (b - a)) by ring. eapply Rle_trans; [apply Rabs_triang|]. lra. }
  destruct (Fin fx cx _ _ Fx Cx Sx Px) as (Bx & Gx). destruct (Fin fy cy _ _ Fy Cy Sy Py) as (By & Gy).
  destruct (C126_projection fx fy cx cy w Cam Wz Bx By) as (s & -> & Es & Hx & Hy).
  exists (vx s), (vy s), (to_float (vz s)). split; [reflexivity|]. split; [now apply Gx|]. split; [now apply Gy|].
  rewrite Es. pose proof (float_error (vz w)) as Fe. pose proof tiny_100 as T. rewrite (Rabs_pos_eq (vz w)) in Fe by lra.
  replace (to_float (vz w) - vz e) with ((to_float (vz w) - vz w) + (vz w - vz e)) by ring. eapply Rle_trans; [apply Rabs_triang|].
  apply Rabs_le_inv in Mz as Mz'. lra.
Qed.
Print Assumptions C128_transformed.
(** Not vacuous: a second camera 50 mm to the left of the first one. *)
Definition beside : m4 := mkM4 (mkM3 (mkV 1 0 0) (mkV 0 1 0) (mkV 0 0 1)) (mkV 50 0 0) v0 1.
Example C128_transformed_example : let e := moved beside (measured 512 512 448 240 240 453 depth_z) in
  usual_camera 512 512 448 240 /\ usual_transform beside /\ usual_depth depth_z /\ depth_z <= 30000 /\ not_extreme 512 512 448 240 240 453 /\
  2 <= vz e <= 90000 /\ depth_z <= 1000 * vz e /\ Rabs (seen_x 512 448 e) <= 20000 /\ Rabs (seen_y 512 240 e) <= 20000 /\ seen_x 512 448 e <> 453.
Proof.
  cbv zeta. split; [apply cam_usual|]. split.
  { repeat split; cbn; try (apply Rabs_le; lra); try apply double_0; try (intros; match goal with H : _ \/ _ |- _ => destruct H as [->|[->| ->]] end; cbn; apply Rabs_le; lra).
    change 50 with (IZR 50). pose proof (exact_double 50 0 ltac:(reflexivity) ltac:(lia)) as H. change (bpow radix2 0) with 1 in H. now rewrite Rmult_1_r in H. }
  split; [apply depth_usual|]. unfold not_extreme, seen_x, seen_y, moved, measured, at_depth, dot, beside. cbn [vx vy vz lin col r0 r1 r2]. rewrite depth_value.
  repeat split; try lra; apply Rabs_le; lra.
Qed.
