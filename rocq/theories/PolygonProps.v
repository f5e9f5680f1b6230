(** Polygons: axes, projection, moves, area. *)
From Verif Require Import PolygonSpec GeometrySpec GeometryProps.
From Coq Require Import Lra Psatz Lia List.
From Verif Require Import Vec3.
Import ListNotations.
Local Open Scope R_scope.

Lemma value_inj {A} (a b : A) : Value a = Value b -> a = b.
Proof. congruence. Qed.

(** * Frames *)

Lemma unit_norm_ok v : dot v v = 1 -> unit_norm v = true.
Proof.
  intros U. unfold unit_norm, double_equal. rewrite norm_unit by exact U.
  destruct (Rle_dec (Rabs (1 - 1)) machine_epsilon) as [|N]; [easy|].
  exfalso. apply N. rewrite Rminus_diag_eq, Rabs_R0 by easy. pose proof eps_pos. lra.
Qed.
Lemma orthogonal_ok a b : dot a b = 0 -> nearly_orthogonal a b = true.
Proof.
  intros U. unfold nearly_orthogonal. rewrite U, Rabs_R0. destruct (Rle_dec 0 (1 / 100)); [easy|lra].
Qed.
Definition ppt (c x y p : vec) : point2 := (dot x (vsub p c), dot y (vsub p c)).
Definition upt (c x y : vec) (q : point2) : vec := vadd (vadd c (vscal (fst q) x)) (vscal (snd q) y).
Lemma project_point_ok p c x y : frame x y -> project_point p c x y = Value (ppt c x y p).
Proof.
  intros [X [Y O]]. unfold project_point, check. rewrite (unit_norm_ok x), (unit_norm_ok y), orthogonal_ok; auto.
  now rewrite dot_comm.
Qed.
Lemma unproject_point_ok q c x y : frame x y -> unproject_point q c x y = Value (upt c x y q).
Proof.
  intros [X [Y O]]. unfold unproject_point, check. rewrite (unit_norm_ok x), (unit_norm_ok y), orthogonal_ok; auto.
  now rewrite dot_comm.
Qed.
Lemma each_value {A B} (f : A -> result B) g l : (forall a, f a = Value (g a)) -> each f l = Value (map g l).
Proof. intros H. induction l as [|a l IH]; cbn; [easy|]. now rewrite H, IH. Qed.
Lemma make_polygon_ok b x y c : frame x y ->
  make_polygon b x y c = Value (mkPolygon (correct b) c x y (area (correct b))).
Proof.
  intros [X [Y O]]. unfold make_polygon, check. rewrite (unit_norm_ok x), (unit_norm_ok y), orthogonal_ok; auto.
  now rewrite dot_comm.
Qed.
Lemma area_ring r : area r = ring_area r.
Proof. unfold area, ring_area. destruct (length r <? 3)%nat eqn:E; [|easy]. replace (length r <? 4)%nat with true; [easy|].
  symmetry. apply Nat.ltb_lt. apply Nat.ltb_lt in E. lia. Qed.

(** An orthonormal frame gives back every vector *)
Lemma frame_normal x y : frame x y -> dot (cross x y) (cross x y) = 1.
Proof. intros [X [Y O]]. fold (sqn (cross x y)). rewrite lagrange. unfold sqn. rewrite X, Y, O. ring. Qed.
Lemma frame_decompose x y v : frame x y ->
  vadd (vadd (vscal (dot x v) x) (vscal (dot y v) y)) (vscal (dot (cross x y) v) (cross x y)) = v.
Proof.
  intros F. pose proof (frame_normal x y F) as N. destruct F as [X [Y O]]. set (n := cross x y) in *.
  set (w := vsub v (vadd (vadd (vscal (dot x v) x) (vscal (dot y v) y)) (vscal (dot n v) n))).
  assert (NX : dot n x = 0) by (unfold n; clear; destruct x, y; v3unfold; ring).
  assert (NY : dot n y = 0) by (unfold n; clear; destruct x, y; v3unfold; ring).
  assert (WX : dot w x = 0).
  { unfold w. rewrite dot_sub_l, !dot_add_l, !dot_scal_l, X, NX, (dot_comm y x), O, (dot_comm v x). ring. }
  assert (WY : dot w y = 0).
  { unfold w. rewrite dot_sub_l, !dot_add_l, !dot_scal_l, Y, NY, O, (dot_comm v y). ring. }
  assert (WN : dot w n = 0).
  { unfold w. rewrite dot_sub_l, !dot_add_l, !dot_scal_l, N, (dot_comm x n), (dot_comm y n), NX, NY, (dot_comm v n). ring. }
  assert (C : cross n w = v0).
  { replace (cross n w) with (vsub (vscal (dot w x) y) (vscal (dot w y) x)).
    - rewrite WX, WY. apply vec_eq; cbn; ring.
    - unfold n. clear. destruct x, y, w. apply vec_eq; v3unfold; ring. }
  assert (Z : sqn w = 0).
  { pose proof (lagrange n w) as L. rewrite C in L. unfold sqn in L at 1. rewrite dot_0_l in L.
    unfold sqn in L at 1. rewrite N, (dot_comm n w), WN in L. lra. }
  apply sqn_zero in Z. unfold w in Z. injection Z as Z1 Z2 Z3. apply vec_eq; cbn in *; lra.
Qed.

(** * The axes chosen for a plane (C48) *)

Lemma select_axis_ok n : is_unit n ->
  exists r, select_axis n = r /\ dot r r = 1 /\ dot n r * dot n r < 1.
Proof.
  intros U. eexists. split; [reflexivity|]. destruct n as [a b c]. unfold is_unit, dot in U. cbn in U.
  unfold select_axis, within. cbv zeta.
  replace (dot (mkV a b c) (mkV 1 0 0)) with a by (unfold dot; cbn; ring).
  replace (dot (mkV a b c) (mkV 0 1 0)) with b by (unfold dot; cbn; ring).
  replace (dot (mkV a b c) (mkV 0 0 1)) with c by (unfold dot; cbn; ring).
  set (dx := Rabs a). set (dy := Rabs b). set (dz := Rabs c).
  assert (SQ : forall t, Rabs t * Rabs t = t * t) by (intros t; rewrite <- Rabs_mult, Rabs_right; [ring|apply Rle_ge; nra]).
  assert (Dx : dx * dx = a * a) by apply SQ. assert (Dy : dy * dy = b * b) by apply SQ. assert (Dz : dz * dz = c * c) by apply SQ.
  assert (Px : 0 <= dx) by apply Rabs_pos. assert (Py : 0 <= dy) by apply Rabs_pos. assert (Pz : 0 <= dz) by apply Rabs_pos.
  set (m := Rmin dx (Rmin dy dz)).
  assert (M : m <= dx /\ m <= dy /\ m <= dz).
  { unfold m. pose proof (Rmin_l dx (Rmin dy dz)). pose proof (Rmin_r dx (Rmin dy dz)).
    pose proof (Rmin_l dy dz). pose proof (Rmin_r dy dz). lra. }
  assert (E : m = dx \/ m = dy \/ m = dz).
  { unfold m, Rmin. destruct (Rle_dec dy dz); destruct (Rle_dec dx _); auto. }
  assert (P : 0 <= m) by (destruct E as [-> |[-> | ->]]; easy).
  clearbody dx dy dz m.
  assert (M1 : m * m <= / 3) by nra.
  assert (M2 : m <= 6 / 10) by nra.
  destruct (Rle_dec (Rabs (m - dx)) (1 / 10)) as [H|H].
  { rewrite Rabs_left1 in H by lra. unfold dot. cbn. split; [ring|]. nra. }
  destruct (Rle_dec (Rabs (m - dy)) (1 / 10)) as [G|G].
  { rewrite Rabs_left1 in G by lra. unfold dot. cbn. split; [ring|]. nra. }
  destruct (Rle_dec (Rabs (m - dz)) (1 / 10)) as [K|K].
  { rewrite Rabs_left1 in K by lra. unfold dot. cbn. split; [ring|]. nra. }
  exfalso. destruct E as [-> |[-> | ->]]; rewrite Rminus_diag_eq, Rabs_R0 in * by easy; lra.
Qed.

(** For every unit normal, two axes are found: orthonormal, in the plane, and such that the
    normal of the polygon is the normal of the plane. *)
Theorem C48_axes :
  forall n, is_unit n -> exists x y, plane_axes n = Value (x, y) /\ frame x y /\ cross x y = n.
Proof.
  intros n U. destruct (select_axis_ok n U) as [r [E [R D]]].
  set (x := vnormalized (cross n r)). set (y := vnormalized (cross n x)).
  assert (NR : cross n r <> v0).
  { intros Z. pose proof (lagrange n r) as L. rewrite Z in L. unfold sqn in L. rewrite dot_0_l, R in L.
    unfold is_unit in U. rewrite U in L. lra. }
  assert (X : dot x x = 1) by (apply normalized_is_unit; easy).
  assert (XN : dot x n = 0).
  { assert (O : dot (cross n r) n = 0) by (clear; destruct n, r; v3unfold; ring).
    unfold x, vnormalized. set (w := cross n r) in *. clearbody w. destruct (Rlt_dec 0 (sqn w)); [|exact O].
    rewrite dot_scal_l, O. ring. }
  assert (Y' : is_unit (cross n x)).
  { unfold is_unit. fold (sqn (cross n x)). rewrite lagrange. unfold sqn. rewrite (dot_comm n x), XN, X. unfold is_unit in U. rewrite U. ring. }
  assert (Y : y = cross n x) by (apply normalized_unit; exact Y').
  assert (YX : dot y x = 0) by (rewrite Y; clear; destruct n, x; v3unfold; ring).
  assert (YN : dot y n = 0) by (rewrite Y; clear; destruct n, x; v3unfold; ring).
  assert (C : cross x y = n).
  { rewrite Y. replace (cross x (cross n x)) with (vsub (vscal (dot x x) n) (vscal (dot x n) x))
      by (clear; destruct n, x; apply vec_eq; v3unfold; ring).
    rewrite X, XN. apply vec_eq; cbn; ring. }
  exists x, y. split; [|split; [split; [easy|split; [rewrite Y; exact Y'|now rewrite dot_comm]]|exact C]].
  unfold plane_axes. rewrite E. fold x y. unfold check.
  rewrite (unit_norm_ok n U), (unit_norm_ok r R), (unit_norm_ok x X).
  rewrite (unit_norm_ok y) by (rewrite Y; exact Y').
  rewrite (orthogonal_ok x n XN), (orthogonal_ok y x YX), (orthogonal_ok y n YN). easy.
Qed.

(** * Points of the plane (C48) *)

(** Coordinates of the plane to space and back: always the same coordinates. *)
Theorem C48_plane_space_plane :
  forall x y c q, frame x y ->
  exists p, unproject_point q c x y = Value p /\ on_plane (cross x y) c p /\ project_point p c x y = Value q.
Proof.
  intros x y c [a b] F. rewrite unproject_point_ok by easy. eexists. split; [reflexivity|].
  rewrite project_point_ok by easy. destruct F as [X [Y O]]. unfold on_plane, ppt, upt. cbn [fst snd].
  replace (vsub (vadd (vadd c (vscal a x)) (vscal b y)) c) with (vadd (vscal a x) (vscal b y)) by (clear; apply vec_eq; cbn; ring).
  rewrite dot_add_l, !dot_scal_l, !dot_add_r, !dot_scal_r, X, Y, (dot_comm y x), O. split; [|do 2 f_equal; ring].
  replace (dot x (cross x y)) with 0 by (clear; destruct x, y; v3unfold; ring).
  replace (dot y (cross x y)) with 0 by (clear; destruct x, y; v3unfold; ring). ring.
Qed.
(** A point to coordinates and back: the foot of the point on the plane, which is the closest
    point of the plane; so a point of the plane comes back. *)
Theorem C48_space_plane_space :
  forall x y c p, frame x y ->
  exists q, project_point p c x y = Value q /\ unproject_point q c x y = Value (foot (cross x y) c p) /\
  (on_plane (cross x y) c p -> foot (cross x y) c p = p) /\
  (forall z, on_plane (cross x y) c z -> dist (foot (cross x y) c p) p <= dist z p).
Proof.
  intros x y c p F. rewrite project_point_ok by easy. eexists. split; [reflexivity|].
  rewrite unproject_point_ok by easy. unfold upt, ppt. cbn [fst snd]. split; [|split].
  - f_equal. pose proof (frame_decompose x y (vsub p c) F) as D. unfold foot.
    rewrite (dot_comm (vsub p c) (cross x y)). set (n := cross x y) in *.
    set (A := dot x (vsub p c)) in *. set (B := dot y (vsub p c)) in *. set (K := dot n (vsub p c)) in *.
    clearbody A B K n. injection D as D1 D2 D3. apply vec_eq; cbn in *; lra.
  - unfold on_plane, foot. intros ->. apply vec_eq; cbn; ring.
  - intros z Hz. unfold dist, norm. apply sqrt_le_1_alt. pose proof (frame_normal x y F) as N. set (n := cross x y) in *.
    replace (vsub (foot n c p) p) with (vscal (- dot (vsub p c) n) n) by (unfold foot; clear; apply vec_eq; cbn; ring).
    unfold sqn at 1. rewrite dot_scal_l, dot_scal_r, N.
    pose proof (cauchy (vsub z p) n) as Q. unfold sqn in Q at 2. rewrite N in Q. unfold on_plane in Hz.
    assert (E : dot (vsub z p) n = - dot (vsub p c) n).
    { replace (vsub z p) with (vsub (vsub z c) (vsub p c)) by (clear; apply vec_eq; cbn; ring). rewrite dot_sub_l, Hz. ring. }
    rewrite E in Q. lra.
Qed.

(** * Rings *)

Lemma edges_cons a b l : edges (a :: b :: l) = (fst a + fst b) * (snd a - snd b) + edges (b :: l).
Proof. reflexivity. Qed.
Lemma edges_snoc l a b : edges (l ++ [a; b]) = edges (l ++ [a]) + (fst a + fst b) * (snd a - snd b).
Proof.
  induction l as [|c [|d l] IH]; [cbn; ring|cbn; ring|]. cbn [app] in *. rewrite !edges_cons. rewrite IH. ring.
Qed.
Lemma edges_rev r : edges (rev r) = - edges r.
Proof.
  induction r as [|a [|b r] IH]; [cbn; ring|cbn; ring|]. cbn [rev] in *. rewrite <- app_assoc. cbn [app].
  rewrite edges_snoc, IH, edges_cons. ring.
Qed.
Lemma area_rev r : ring_area (rev r) = - ring_area r.
Proof. unfold ring_area. rewrite rev_length, edges_rev. destruct (length r <? 4)%nat; lra. Qed.
(** An affine map of the plane multiplies the area by its determinant *)
Definition affine (a b c d e g : R) (p : point2) : point2 := (a * fst p + b * snd p + e, c * fst p + d * snd p + g).
Lemma edges_affine a b c d e g r z :
  let G (p : point2) := fst (affine a b c d e g p) * snd (affine a b c d e g p) + e * (c * fst p + d * snd p)
             - g * (a * fst p + b * snd p) - (a * d - b * c) * (fst p * snd p) in
  r <> [] ->
  edges (map (affine a b c d e g) r) = (a * d - b * c) * edges r + G (hd z r) - G (List.last r z).
Proof.
  intros G. induction r as [|p [|q r] IH]; intros N; [easy|cbn; ring|].
  cbn [map] in *. rewrite !edges_cons. rewrite IH by easy.
  change (List.last (p :: q :: r) z) with (List.last (q :: r) z). cbn [hd].
  unfold G, affine. cbn [fst snd]. ring.
Qed.
Lemma area_affine a b c d e g r : closed r ->
  ring_area (map (affine a b c d e g) r) = (a * d - b * c) * ring_area r.
Proof.
  intros C. unfold ring_area. rewrite map_length. destruct (length r <? 4)%nat eqn:E; [ring|].
  assert (N : r <> []) by (intros ->; discriminate).
  rewrite (edges_affine _ _ _ _ _ _ r (0, 0) N). rewrite (C (0, 0)). field.
Qed.
Lemma last_map {A B} (f : A -> B) l d : List.last (map f l) (f d) = f (List.last l d).
Proof. induction l as [|a [|b l] IH]; cbn in *; auto. Qed.
Lemma last_default {A} (l : list A) d d' : l <> [] -> List.last l d = List.last l d'.
Proof. induction l as [|a [|b l] IH]; intros N; [easy|easy|]. apply IH. easy. Qed.
Lemma closed_alt r : closed r <-> match r with [] => True | a :: _ => a = List.last r a end.
Proof.
  split.
  - intros C. destruct r as [|a r]; [easy|]. apply (C a).
  - intros H d. destruct r as [|a r]; [easy|]. cbn [hd]. rewrite H at 1. apply last_default. easy.
Qed.
Lemma closed_map (f : point2 -> point2) r : closed r -> closed (map f r).
Proof.
  rewrite !closed_alt. destruct r as [|a r]; [easy|]. intros H. cbn [map].
  change (f a :: map f r) with (map f (a :: r)). rewrite last_map. now rewrite <- H.
Qed.
Lemma last_rev {A} (l : list A) d : List.last (rev l) d = hd d l.
Proof. destruct l as [|a l]; [easy|]. cbn. apply last_last. Qed.
Lemma hd_rev {A} (l : list A) d : hd d (rev l) = List.last l d.
Proof. rewrite <- (rev_involutive l) at 2. now rewrite last_rev. Qed.
Lemma closed_rev r : closed r -> closed (rev r).
Proof. intros C d. rewrite hd_rev, last_rev. symmetry. apply C. Qed.
Lemma close_ring_closed r : (2 < length r)%nat -> closed (close_ring r).
Proof.
  intros L. unfold close_ring. destruct r as [|a r]; [easy|].
  replace (2 <? length (a :: r))%nat with true by (symmetry; apply Nat.ltb_lt; easy).
  destruct (point2_eq_dec a (List.last (a :: r) a)) as [E|E].
  - apply closed_alt. exact E.
  - apply closed_alt. cbn [app]. change (a :: r ++ [a]) with ((a :: r) ++ [a]). now rewrite last_last.
Qed.
Lemma close_ring_id r : closed r -> close_ring r = r.
Proof.
  intros C. apply closed_alt in C. unfold close_ring. destruct r as [|a r]; [easy|].
  destruct (2 <? length (a :: r))%nat; [|easy]. now destruct (point2_eq_dec a (List.last (a :: r) a)).
Qed.
Lemma correct_area r : 0 <= ring_area (correct r).
Proof. unfold correct. destruct (Rlt_dec _ 0); [rewrite area_rev; lra|lra]. Qed.
Lemma correct_id r : proper_ring r -> correct r = r.
Proof. intros [C A]. unfold correct. rewrite close_ring_id by easy. destruct (Rlt_dec (ring_area r) 0); [lra|easy]. Qed.
Lemma correct_closed r : closed r -> same_or_reversed r (correct r) /\ proper_ring (correct r) /\ ring_area (correct r) = Rabs (ring_area r).
Proof.
  intros C. unfold correct, same_or_reversed. rewrite close_ring_id by easy. destruct (Rlt_dec (ring_area r) 0).
  - split; [now right|]. split; [split; [now apply closed_rev|rewrite area_rev; lra]|]. rewrite area_rev, Rabs_left; lra.
  - split; [now left|]. split; [split; [easy|lra]|]. rewrite Rabs_right; lra.
Qed.

(** * Construction from a boundary (C48) *)

(** A polygon built from at least 3 points has a closed clockwise boundary, made of exactly the
    given points in their order or in the reversed one, and its area is not negative. *)
Theorem C48_construct :
  forall b x y c, frame x y -> (3 <= length b)%nat ->
  exists p r, make_polygon b x y c = Value p /\ sound p /\ center p = c /\ x_axis p = x /\ y_axis p = y /\
  (closed b /\ r = b \/ ~ closed b /\ r = b ++ firstn 1 b) /\ same_or_reversed r (outline p) /\
  stored_area p = Rabs (ring_area r) /\ (forall q, In q (outline p) <-> In q b).
Proof.
  intros b x y c F L. rewrite make_polygon_ok by exact F. eexists. exists (close_ring b). split; [reflexivity|].
  assert (CL : closed (close_ring b)) by (apply close_ring_closed; lia).
  destruct (correct_closed (close_ring b) CL) as [SR [PR AR]].
  assert (CC : correct (close_ring b) = correct b) by (unfold correct; now rewrite (close_ring_id (close_ring b))).
  rewrite CC in SR, PR, AR. cbn [outline center x_axis y_axis stored_area].
  assert (K : closed b /\ close_ring b = b \/ ~ closed b /\ close_ring b = b ++ firstn 1 b).
  { unfold close_ring. destruct b as [|a b]; [cbn in L; lia|].
    replace (2 <? length (a :: b))%nat with true by (symmetry; apply Nat.ltb_lt; lia).
    destruct (point2_eq_dec a (List.last (a :: b) a)) as [E|E]; [left|right]; (split; [|reflexivity]).
    - now apply closed_alt.
    - intros C. apply E. now apply closed_alt in C. }
  split; [split; [exact F|split; [exact PR|apply area_ring]]|]. split; [easy|]. split; [easy|]. split; [easy|].
  split; [exact K|]. split; [exact SR|]. split; [now rewrite area_ring|].
  intros q. assert (Q : In q (correct b) <-> In q (close_ring b)).
  { destruct SR as [-> | ->]; [easy|]. symmetry. apply in_rev. }
  rewrite Q. destruct K as [[_ ->]|[_ ->]]; [easy|]. rewrite in_app_iff. split; [intros [H|H]|auto]; [easy|].
  destruct b; [easy|]. cbn in H. destruct H as [->|[]]. now left.
Qed.

(** * Moves between camera and world (C48) *)

Lemma unprojected_ok p : frame (x_axis p) (y_axis p) ->
  unprojected p = Value (map (upt (center p) (x_axis p) (y_axis p)) (outline p)).
Proof. intros F. unfold unprojected. apply each_value. intros q. now apply unproject_point_ok. Qed.
Lemma rigid_frame m x y : rigid4 m -> frame x y ->
  vnormalized (mvmul (lin m) x) = mvmul (lin m) x /\ vnormalized (mvmul (lin m) y) = mvmul (lin m) y /\
  frame (mvmul (lin m) x) (mvmul (lin m) y).
Proof.
  intros [O _] [X [Y D]]. unfold frame. rewrite !(orthogonal_dot _ _ _ O).
  split; [|split; [|easy]]; apply normalized_unit; unfold is_unit; now rewrite orthogonal_dot.
Qed.
Lemma rigid_affine m v : rigid4 m -> point_to_world m v = vadd (mvmul (lin m) v) (col m).
Proof. intros _. unfold point_to_world, mulv4. cbn. apply vec_eq; cbn; ring. Qed.
Lemma move_ok m p : rigid4 m -> sound p ->
  move m (point_to_world m (center p)) p =
  Value (mkPolygon (outline p) (point_to_world m (center p)) (mvmul (lin m) (x_axis p)) (mvmul (lin m) (y_axis p)) (stored_area p)).
Proof.
  intros R [F [C A]]. destruct (rigid_frame m _ _ R F) as [EX [EY F']]. unfold move. rewrite EX, EY.
  unfold check. rewrite (unit_norm_ok _ (proj1 F')), (unit_norm_ok _ (proj1 (proj2 F'))).
  rewrite orthogonal_ok by (rewrite dot_comm; apply F').
  assert (T : transform_boundary p m (mvmul (lin m) (x_axis p)) (mvmul (lin m) (y_axis p)) (point_to_world m (center p)) = Value (outline p)).
  { unfold transform_boundary. rewrite <- (map_id (outline p)) at 2. apply each_value. intros [a b].
    rewrite unproject_point_ok by easy. cbn [bind]. rewrite project_point_ok by easy. f_equal. unfold ppt, upt. cbn [fst snd].
    rewrite !rigid_affine by easy. rewrite !mvmul_add, !mvmul_scal.
    set (X := mvmul (lin m) (x_axis p)) in *. set (Y := mvmul (lin m) (y_axis p)) in *. set (M := mvmul (lin m) (center p)).
    replace (vsub (vadd (vadd (vadd M (vscal a X)) (vscal b Y)) (col m)) (vadd M (col m)))
      with (vadd (vscal a X) (vscal b Y)) by (clear; apply vec_eq; cbn; ring).
    destruct F' as [X1 [Y1 O1]]. rewrite !dot_add_r, !dot_scal_r, X1, Y1, (dot_comm Y X), O1. f_equal; ring. }
  rewrite T. cbn [bind]. rewrite make_polygon_ok by easy. rewrite correct_id by easy. rewrite area_ring, A. easy.
Qed.
Lemma move_unprojected m p : rigid4 m -> sound p ->
  unprojected (mkPolygon (outline p) (point_to_world m (center p)) (mvmul (lin m) (x_axis p)) (mvmul (lin m) (y_axis p)) (stored_area p))
  = Value (map (point_to_world m) (map (upt (center p) (x_axis p) (y_axis p)) (outline p))).
Proof.
  intros R [F _]. destruct (rigid_frame m _ _ R F) as [_ [_ F']]. rewrite unprojected_ok by exact F'.
  cbn [outline center x_axis y_axis]. f_equal. rewrite map_map. apply map_ext. intros [a b]. unfold upt. cbn [fst snd].
  rewrite !rigid_affine by easy. rewrite !mvmul_add, !mvmul_scal. apply vec_eq; cbn; ring.
Qed.

(** Moving a polygon to world space succeeds and keeps its boundary coordinates, its area and
    its points: each point is the moved point of the original; and it can be moved back. *)
Theorem C48_moves :
  forall q t w2c p, unit_quat q -> world_to_camera (camera_to_world q t) w2c -> sound p ->
  let c2w := camera_to_world q t in
  exists p' pts, to_world_space c2w p = Value p' /\ sound p' /\
    outline p' = outline p /\ stored_area p' = stored_area p /\
    unprojected p = Value pts /\ unprojected p' = Value (map (point_to_world c2w) pts) /\
    to_camera_space w2c p' = Value p.
Proof.
  intros q t w2c p U I S c2w. pose proof (camera_to_world_rigid q t U) as R. fold c2w in R, I.
  destruct (rigid_round_trip c2w w2c (center p) R I) as [B1 [B2 R']].
  unfold to_world_space. rewrite move_ok by easy.
  eexists. exists (map (upt (center p) (x_axis p) (y_axis p)) (outline p)). split; [reflexivity|].
  pose proof S as S'. destruct S as [F [C A]]. destruct (rigid_frame c2w _ _ R F) as [_ [_ F']].
  assert (S2 : sound (mkPolygon (outline p) (point_to_world c2w (center p)) (mvmul (lin c2w) (x_axis p)) (mvmul (lin c2w) (y_axis p)) (stored_area p)))
    by (split; [exact F'|split; [exact C|exact A]]).
  split; [exact S2|]. split; [easy|]. split; [easy|]. split; [now apply unprojected_ok|].
  split; [now apply move_unprojected|].
  unfold to_camera_space. rewrite rigid_to_camera by easy. rewrite move_ok by easy. cbn [outline center x_axis y_axis stored_area].
  rewrite B1. destruct (inverse4_unique _ _ _ I (rigid_inverse_ok _ R)). cbn in *.
  assert (L : forall v, mvmul (lin w2c) (mvmul (lin c2w) v) = v).
  { intros v. rewrite (inverse4_unique _ _ _ I (rigid_inverse_ok _ R)). unfold rigid_inverse. cbn [lin]. apply orthogonal_inv. apply R. }
  rewrite !L. destruct p. reflexivity.
Qed.

(** * Projection on another plane (C48) *)

Definition project_boundary (p : polygon) (x y c : vec) : list point2 :=
  map (fun q => ppt c x y (upt (center p) (x_axis p) (y_axis p) q)) (outline p).
Lemma project_ok p x y c : frame (x_axis p) (y_axis p) -> frame x y -> same_frame p x y c = false ->
  project p x y c = Value (mkPolygon (correct (project_boundary p x y c)) c x y (area (correct (project_boundary p x y c)))).
Proof.
  intros F F' N. unfold project, check. rewrite (unit_norm_ok x) by apply F'. rewrite orthogonal_ok by apply F'. rewrite N.
  assert (E : each (fun q => bind (unproject_point q (center p) (x_axis p) (y_axis p)) (fun v => project_point v c x y)) (outline p)
          = Value (project_boundary p x y c)).
  { apply each_value. intros q. rewrite unproject_point_ok by easy. cbn [bind]. now rewrite project_point_ok. }
  rewrite E. cbn [bind]. now apply make_polygon_ok.
Qed.
Lemma binet a b c d : dot (cross a b) (cross c d) = dot a c * dot b d - dot a d * dot b c.
Proof. destruct a, b, c, d. v3unfold. ring. Qed.
Lemma project_affine p x y c q :
  ppt c x y (upt (center p) (x_axis p) (y_axis p) q) =
  affine (dot x (x_axis p)) (dot x (y_axis p)) (dot y (x_axis p)) (dot y (y_axis p))
         (dot x (vsub (center p) c)) (dot y (vsub (center p) c)) q.
Proof.
  destruct q as [a b]. unfold ppt, upt, affine. cbn [fst snd].
  rewrite !dot_sub_r, !dot_add_r, !dot_scal_r. f_equal; ring.
Qed.
(** The projection of a polygon on another plane: its points are the feet of the points of
    the polygon, and its area is multiplied by the cosine of the angle of the planes. The
    polygon itself is returned when the frames are the same, up to rounding. *)
Theorem C48_project :
  forall p x y c, sound p -> frame x y ->
  exists p', project p x y c = Value p' /\ sound p' /\
  ((same_frame p x y c = true /\ p' = p) \/
   (x_axis p' = x /\ y_axis p' = y /\ center p' = c /\
    stored_area p' = Rabs (dot (polygon_normal p) (cross x y)) * stored_area p /\
    exists pts pts', unprojected p = Value pts /\ unprojected p' = Value pts' /\
      same_or_reversed (map (foot (cross x y) c) pts) pts')).
Proof.
  intros p x y c [F [C A]] F'. destruct (same_frame p x y c) eqn:S.
  - exists p. unfold project, check. rewrite (unit_norm_ok x) by apply F'. rewrite orthogonal_ok by apply F'. rewrite S.
    split; [easy|]. split; [now split|]. now left.
  - rewrite project_ok by easy. eexists. split; [reflexivity|].
    assert (CB : closed (project_boundary p x y c)) by (apply closed_map; apply C).
    destruct (correct_closed _ CB) as [RV [PR AR]].
    split; [split; [exact F'|split; [exact PR|apply area_ring]]|]. right. cbn [x_axis y_axis center stored_area outline].
    split; [easy|]. split; [easy|]. split; [easy|]. split.
    + rewrite area_ring, AR, A.
      assert (E : ring_area (project_boundary p x y c) = dot (polygon_normal p) (cross x y) * ring_area (outline p)).
      { unfold project_boundary. erewrite map_ext; [|intros q; apply project_affine]. rewrite area_affine by apply C.
        f_equal. unfold polygon_normal. rewrite binet. rewrite (dot_comm (x_axis p) x), (dot_comm (y_axis p) y), (dot_comm (x_axis p) y), (dot_comm (y_axis p) x). ring. }
      rewrite E, Rabs_mult. f_equal. rewrite Rabs_right; [easy|]. destruct C. lra.
    + exists (map (upt (center p) (x_axis p) (y_axis p)) (outline p)).
      exists (map (upt c x y) (correct (project_boundary p x y c))).
      split; [now apply unprojected_ok|]. split; [now apply unprojected_ok|].
      assert (E : map (upt c x y) (project_boundary p x y c) = map (foot (cross x y) c) (map (upt (center p) (x_axis p) (y_axis p)) (outline p))).
      { unfold project_boundary. rewrite !map_map. apply map_ext. intros q.
        destruct (C48_space_plane_space x y c (upt (center p) (x_axis p) (y_axis p) q) F') as [q' [P1 [P2 _]]].
        rewrite project_point_ok in P1 by easy. rewrite unproject_point_ok in P2 by easy. apply value_inj in P1. subst q'. now apply value_inj in P2. }
      rewrite <- E. destruct RV as [-> | ->]; [now left|right]. now rewrite map_rev.
Qed.
(** On the same plane, seen from other axes, no point moves and the area does not change. *)
Theorem C48_project_same_plane :
  forall p x y c, sound p -> frame x y -> same_frame p x y c = false ->
  (cross x y = polygon_normal p \/ cross x y = vneg (polygon_normal p)) -> on_plane (polygon_normal p) (center p) c ->
  exists p' pts pts', project p x y c = Value p' /\ stored_area p' = stored_area p /\
    unprojected p = Value pts /\ unprojected p' = Value pts' /\ same_or_reversed pts pts'.
Proof.
  intros p x y c S F' N E O. destruct (C48_project p x y c S F') as [p' [P [S' [[T _]|[_ [_ [_ [A [pts [pts' [U [U' R]]]]]]]]]]]]; [congruence|].
  exists p', pts, pts'. split; [easy|]. destruct S as [F [C A']].
  assert (NN : dot (polygon_normal p) (polygon_normal p) = 1) by (apply frame_normal; easy).
  assert (D : Rabs (dot (polygon_normal p) (cross x y)) = 1).
  { destruct E as [-> | ->].
    - rewrite NN. apply Rabs_R1.
    - rewrite dot_comm, dot_neg_l, NN. rewrite Rabs_Ropp. apply Rabs_R1. }
  split; [rewrite A, D; ring|]. split; [easy|]. split; [easy|].
  replace pts with (map (foot (cross x y) c) pts); [easy|].
  rewrite unprojected_ok in U by easy. injection U as <-. rewrite map_map. apply map_ext. intros [a b].
  unfold foot.
  assert (Z : dot (vsub (upt (center p) (x_axis p) (y_axis p) (a, b)) c) (polygon_normal p) = 0).
  { unfold on_plane in O. unfold upt. cbn [fst snd].
    replace (vsub (vadd (vadd (center p) (vscal a (x_axis p))) (vscal b (y_axis p))) c)
      with (vsub (vadd (vscal a (x_axis p)) (vscal b (y_axis p))) (vsub c (center p))) by (clear; apply vec_eq; cbn; ring).
    rewrite dot_sub_l, dot_add_l, !dot_scal_l, O. unfold polygon_normal.
    replace (dot (x_axis p) (cross (x_axis p) (y_axis p))) with 0 by (clear; destruct (x_axis p), (y_axis p); v3unfold; ring).
    replace (dot (y_axis p) (cross (x_axis p) (y_axis p))) with 0 by (clear; destruct (x_axis p), (y_axis p); v3unfold; ring). ring. }
  destruct E as [-> | ->].
  - rewrite Z. apply vec_eq; cbn; ring.
  - rewrite (dot_comm _ (vneg _)), dot_neg_l, (dot_comm (polygon_normal p)), Z. apply vec_eq; cbn; ring.
Qed.

(** * Transformation to another plane (C48) *)

Lemma frame_matrix_image x y x' y' c c' v : frame x y -> frame x' y' ->
  exists m, frame_change x y c x' y' c' = Value m /\ rigid4 m /\ col m = vsub c' c /\
    mvmul (lin m) x = x' /\ mvmul (lin m) y = y' /\
    point_to_world m v = vadd (mvmul (lin m) v) (vsub c' c).
Proof.
  intros F F'. unfold frame_change, check.
  rewrite (unit_norm_ok x), (unit_norm_ok y), (unit_norm_ok x'), (unit_norm_ok y') by (apply F || apply F').
  rewrite orthogonal_ok by (rewrite dot_comm; apply F). rewrite orthogonal_ok by (rewrite dot_comm; apply F').
  eexists. split; [reflexivity|].
  assert (G : forall x y, frame x y -> orthogonal (frame_matrix x y)).
  { clear. intros x y F. pose proof (frame_normal x y F) as N. pose proof F as F0. destruct F as [X [Y O]].
    assert (E2 : mmul (mT (frame_matrix x y)) (frame_matrix x y) = mid).
    { assert (NX : dot (cross x y) x = 0) by (clear; destruct x, y; v3unfold; ring).
      assert (NY : dot (cross x y) y = 0) by (clear; destruct x, y; v3unfold; ring).
      unfold frame_matrix. rewrite mT_mT. set (n := cross x y) in *. clearbody n. unfold mmul. cbn [r0 r1 r2]. rewrite mT_mT.
      unfold mvmul. cbn [r0 r1 r2]. rewrite X, Y, N, (dot_comm y x), O, (dot_comm x n), (dot_comm y n), NX, NY. reflexivity. }
    split; [|exact E2].
    assert (H : forall v, mvmul (mmul (frame_matrix x y) (mT (frame_matrix x y))) v = v).
    { intros v. rewrite mvmul_mmul. rewrite <- (frame_decompose x y v F0) at 2. unfold frame_matrix. rewrite mT_mT.
      unfold mT, mvmul. cbn [r0 r1 r2]. set (n := cross x y). clearbody n. clear. destruct x, y, n, v. apply vec_eq; v3unfold; ring. }
    set (M := mmul (frame_matrix x y) (mT (frame_matrix x y))) in *. clearbody M. clear -H.
    pose proof (H (mkV 1 0 0)) as H1. pose proof (H (mkV 0 1 0)) as H2. pose proof (H (mkV 0 0 1)) as H3.
    destruct M as [[? ? ?] [? ? ?] [? ? ?]]. unfold mvmul, dot in *. cbn in *. injection H1 as ? ? ?. injection H2 as ? ? ?. injection H3 as ? ? ?.
    unfold mid. apply mat_eq; apply vec_eq; cbn; lra. }
  assert (C1 : forall x y, frame x y -> mvmul (mT (frame_matrix x y)) x = mkV 1 0 0 /\ mvmul (mT (frame_matrix x y)) y = mkV 0 1 0).
  { clear. intros x y [X [Y O]]. unfold frame_matrix. rewrite mT_mT. unfold mvmul. cbn [r0 r1 r2].
    replace (dot (cross x y) x) with 0 by (clear; destruct x, y; v3unfold; ring).
    replace (dot (cross x y) y) with 0 by (clear; destruct x, y; v3unfold; ring).
    rewrite X, Y, (dot_comm y x), O. easy. }
  assert (C2 : mvmul (frame_matrix x' y') (mkV 1 0 0) = x' /\ mvmul (frame_matrix x' y') (mkV 0 1 0) = y').
  { clear. unfold frame_matrix. set (n := cross x' y'). clearbody n. destruct x', y', n. split; apply vec_eq; v3unfold; ring. }
  split; [split; [cbn [lin]; apply orthogonal_mul; [now apply G|apply orthogonal_T; now apply G]|easy]|].
  split; [easy|]. cbn [lin]. rewrite !mvmul_mmul. destruct (C1 x y F) as [-> ->]. destruct C2 as [-> ->].
  split; [easy|]. split; [easy|]. unfold point_to_world, mulv4. cbn [lin col row corner hd4 tl4 homogeneous].
  rewrite ?mvmul_mmul. set (w := mvmul (frame_matrix x' y') _). clearbody w. clear. apply vec_eq; cbn; ring.
Qed.
(** Transformed to another plane, a polygon keeps its shape and area; but its coordinates are
    shifted by the image of its old center: they are kept exactly when the turned center and
    the old center project to the same point. *)
Theorem C48_transform :
  forall p x y c, sound p -> frame x y ->
  exists p' rotation dx dy, transform p x y c = Value p' /\ sound p' /\
  stored_area p' = stored_area p /\ orthogonal rotation /\
  mvmul rotation (x_axis p) = x /\ mvmul rotation (y_axis p) = y /\
  (dx, dy) = ppt (center p) x y (mvmul rotation (center p)) /\
  ((same_frame p x y c = true /\ p' = p) \/
   (outline p' = map (fun q => (fst q + dx, snd q + dy)) (outline p) /\ x_axis p' = x /\ y_axis p' = y /\ center p' = c)).
Proof.
  intros p x y c [F [C A]] F'.
  destruct (frame_matrix_image (x_axis p) (y_axis p) x y (center p) c v0 F F') as [m [E [R [CO [MX [MY _]]]]]].
  destruct (same_frame p x y c) eqn:S.
  - exists p, (lin m), (fst (ppt (center p) x y (mvmul (lin m) (center p)))), (snd (ppt (center p) x y (mvmul (lin m) (center p)))).
    unfold transform, check. rewrite (unit_norm_ok x) by apply F'. rewrite orthogonal_ok by apply F'. rewrite S.
    split; [easy|]. split; [now split|]. split; [easy|]. split; [apply R|]. split; [easy|]. split; [easy|]. split; [easy|]. now left.
  - set (dx := dot x (vsub (mvmul (lin m) (center p)) (center p))). set (dy := dot y (vsub (mvmul (lin m) (center p)) (center p))).
    unfold transform, check. rewrite (unit_norm_ok x) by apply F'. rewrite orthogonal_ok by apply F'. rewrite S, E. cbn [bind].
    assert (T : transform_boundary p m x y c = Value (map (affine 1 0 0 1 dx dy) (outline p))).
    { unfold transform_boundary. apply each_value. intros [a b]. rewrite unproject_point_ok by easy. cbn [bind].
      rewrite project_point_ok by easy. f_equal. unfold ppt, upt, affine. cbn [fst snd].
      rewrite rigid_affine by easy. rewrite CO, !mvmul_add, !mvmul_scal, MX, MY.
      set (M := mvmul (lin m) (center p)) in *.
      replace (vsub (vadd (vadd (vadd M (vscal a x)) (vscal b y)) (vsub c (center p))) c)
        with (vadd (vadd (vscal a x) (vscal b y)) (vsub M (center p))) by (clear; apply vec_eq; cbn; ring).
      destruct F' as [X [Y O]]. rewrite !dot_add_r, !dot_scal_r, X, Y, (dot_comm y x), O. unfold dx, dy. f_equal; ring. }
    rewrite T. cbn [bind]. rewrite make_polygon_ok by easy.
    assert (PR : proper_ring (map (affine 1 0 0 1 dx dy) (outline p))).
    { split; [apply closed_map; apply C|]. rewrite area_affine by apply C. destruct C. lra. }
    rewrite correct_id by exact PR. eexists. exists (lin m), dx, dy. split; [reflexivity|].
    split; [split; [exact F'|split; [exact PR|apply area_ring]]|]. cbn [stored_area outline x_axis y_axis center].
    split; [rewrite area_ring, area_affine, A by apply C; ring|]. split; [apply R|]. split; [easy|]. split; [easy|]. split; [easy|].
    right. split; [|easy]. apply map_ext. intros [a b]. unfold affine. cbn. f_equal; ring.
Qed.
Definition square : list point2 := [(0, 0); (0, 1); (1, 1); (1, 0); (0, 0)].
Lemma square_proper : proper_ring square /\ ring_area square = 1.
Proof.
  assert (ring_area square = 1) by (unfold ring_area, square; cbn; field).
  split; [split; [now intros d|lra]|easy].
Qed.
Definition square_at (c : vec) : polygon := mkPolygon square c (mkV 1 0 0) (mkV 0 1 0) 1.
Lemma square_sound c : sound (square_at c).
Proof.
  split; [|split; [apply square_proper|symmetry; apply square_proper]]. unfold frame, dot. cbn. repeat split; ring.
Qed.
(** The transformation does not keep the coordinates of a polygon: a square turned by a
    quarter of turn around its normal is displaced. *)
Theorem C48_transform_refuted :
  exists p x y c p', sound p /\ frame x y /\ transform p x y c = Value p' /\ center p' = c /\ outline p' <> outline p.
Proof.
  set (p := square_at (mkV 5 0 0)). assert (F : frame (mkV 0 1 0) (mkV (-1) 0 0)) by (unfold frame, dot; cbn; repeat split; ring).
  destruct (C48_transform p (mkV 0 1 0) (mkV (-1) 0 0) (mkV 5 0 0) (square_sound _) F)
    as [p' [M [dx [dy [T [_ [_ [O [MX [MY [D [[S _]|[E [_ [_ C]]]]]]]]]]]]]]].
  - exfalso. unfold same_frame in S. rewrite !Bool.andb_true_iff in S. destruct S as [[_ S] _].
    unfold is_approx in S. destruct (Rle_dec _ _) as [L|]; [|easy]. revert L. unfold p, square_at. cbn [x_axis].
    set (k := (1 / 10 ^ 12) * (1 / 10 ^ 12)). assert (K : k < 1).
    { unfold k. assert (1 / 10 ^ 12 < 1) by (simpl; lra). assert (0 < 1 / 10 ^ 12) by (simpl; lra). nra. }
    rewrite Rmin_left by (unfold sqn, dot; cbn; lra). unfold sqn, dot, vsub. cbn. lra.
  - exists p, (mkV 0 1 0), (mkV (-1) 0 0), (mkV 5 0 0), p'. split; [apply square_sound|]. split; [easy|]. split; [easy|].
    split; [easy|]. rewrite E. unfold p, square_at. cbn [outline]. intros H. unfold square in H. cbn [map] in H.
    injection H as H _ _ _ _ _ _ _ _ _. cbn in H.
    assert (HX : dx = 0) by lra. clear H.
    unfold p, square_at in *. cbn [x_axis y_axis center] in *.
    replace (mkV 5 0 0) with (vscal 5 (mkV 1 0 0)) in D at 2 by (apply vec_eq; cbn; ring).
    rewrite mvmul_scal, MX in D. unfold ppt, dot in D. cbn in D. injection D as D1 D2. lra.
Qed.
Print Assumptions C48_axes.
Print Assumptions C48_space_plane_space.
Print Assumptions C48_construct.
Print Assumptions C48_moves.
Print Assumptions C48_project.
Print Assumptions C48_transform.
Example C48_example :
  sound (square_at (mkV 5 0 0)) /\ stored_area (square_at (mkV 5 0 0)) = 1 /\ frame (mkV 0 1 0) (mkV 0 0 1) /\
  unit_quat (mkQuat (3 / 5) (4 / 5) 0 0).
Proof. split; [apply square_sound|]. unfold frame, dot, unit_quat. cbn. repeat split; lra. Qed.

(** * The area kept with the polygon (C67) *)

(** Whatever is done to a polygon, the area it gives is the one of its boundary. *)
Inductive polygon_op :=
| Project (x y c : vec) | ProjectNormal (n c : vec) | Transform (x y c : vec) | TransformNormal (n c : vec)
| ToWorld (m : m4) | ToCamera (m : m4) | Simplify | Merge (other : polygon).
Section History.
Variable simplified : list point2 -> R -> list point2.
Variable valid : list point2 -> bool.
Variable union : list point2 -> list point2 -> list (list point2).
Definition run_op (o : polygon_op) (p : polygon) : result polygon :=
  match o with
  | Project x y c => project p x y c
  | ProjectNormal n c => project_normal p n c
  | Transform x y c => transform p x y c
  | TransformNormal n c => transform_normal p n c
  | ToWorld m => to_world_space m p
  | ToCamera m => to_camera_space m p
  | Simplify => Value (simplify simplified valid p)
  | Merge q => merge_union simplified valid union p q
  end.
Fixpoint run_ops (os : list polygon_op) (p : polygon) : result polygon :=
  match os with
  | [] => Value p
  | o :: os => bind (run_op o p) (run_ops os)
  end.
Definition area_known (p : polygon) : Prop := stored_area p = ring_area (outline p).
Lemma check_value {A} c (r : result A) v : check c r = Value v -> r = Value v.
Proof. unfold check. now destruct c. Qed.
Lemma bind_value {A B} (r : result A) (f : A -> result B) v : bind r f = Value v -> exists a, r = Value a /\ f a = Value v.
Proof. destruct r as [a|]; [|easy]. intros H. now exists a. Qed.
Lemma make_polygon_area b x y c p : make_polygon b x y c = Value p -> area_known p.
Proof.
  intros H. unfold make_polygon in H. do 3 apply check_value in H. injection H as <-. unfold area_known. cbn. apply area_ring.
Qed.
Lemma project_area p x y c p' : area_known p -> project p x y c = Value p' -> area_known p'.
Proof.
  intros A H. unfold project in H. do 3 apply check_value in H. destruct (same_frame p x y c); [now injection H as <-|].
  apply bind_value in H. destruct H as [b [_ H]]. now apply make_polygon_area in H.
Qed.
Lemma transform_area p x y c p' : area_known p -> transform p x y c = Value p' -> area_known p'.
Proof.
  intros A H. unfold transform in H. do 3 apply check_value in H. destruct (same_frame p x y c); [now injection H as <-|].
  apply bind_value in H. destruct H as [m [_ H]]. apply bind_value in H. destruct H as [b [_ H]]. now apply make_polygon_area in H.
Qed.
Lemma move_area m c p p' : move m c p = Value p' -> area_known p'.
Proof.
  intros H. unfold move in H. do 3 apply check_value in H. apply bind_value in H. destruct H as [b [_ H]]. now apply make_polygon_area in H.
Qed.
Lemma simplify_area p : area_known (simplify simplified valid p).
Proof.
  unfold simplify, area_known. destruct (valid _); [destruct (Rlt_dec _ _)|]; cbn; [easy| |]; apply area_ring.
Qed.
Lemma run_op_area o p p' : area_known p -> run_op o p = Value p' -> area_known p'.
Proof.
  intros A. destruct o; cbn [run_op].
  - now apply project_area.
  - unfold project_normal. intros H. apply check_value in H. apply bind_value in H. destruct H as [a [_ H]]. now apply project_area in H.
  - now apply transform_area.
  - unfold transform_normal. intros H. apply check_value in H. apply bind_value in H. destruct H as [a [_ H]].
    destruct (same_frame p (fst a) (snd a) c); [now injection H as <-|now apply transform_area in H].
  - unfold to_world_space. apply move_area.
  - unfold to_camera_space. apply move_area.
  - intros [= <-]. apply simplify_area.
  - unfold merge_union. intros H. apply bind_value in H. destruct H as [q [_ H]]. apply bind_value in H. destruct H as [r [_ H]].
    destruct r; [now injection H as <-|]. injection H as <-. apply simplify_area.
Qed.
Theorem C67_area_is_current :
  forall os b x y c p p', make_polygon b x y c = Value p -> run_ops os p = Value p' ->
  stored_area p' = ring_area (outline p').
Proof.
  intros os b x y c p p' M. apply make_polygon_area in M. revert p M. induction os as [|o os IH]; intros p M H.
  - now injection H as <-.
  - cbn in H. apply bind_value in H. destruct H as [q [Q H]]. apply (IH q); [|exact H]. eapply run_op_area; eauto.
Qed.
(** The simplification keeps more than three quarters of the area, and the plane. *)
Theorem C67_simplify :
  forall p, sound p -> let p' := simplify simplified valid p in
  x_axis p' = x_axis p /\ y_axis p' = y_axis p /\ center p' = center p /\
  stored_area p' = ring_area (outline p') /\ stored_area p * (3 / 4) <= stored_area p' /\
  (outline p' = outline p \/ valid (outline p') = true).
Proof.
  intros p [F [C A]] p'. unfold p', simplify. rewrite area_ring. rewrite <- A. pose proof (proj2 C) as N. rewrite <- A in N.
  destruct (valid _) eqn:V; [destruct (Rlt_dec _ _)|]; cbn [outline stored_area x_axis y_axis center]; repeat split; auto; lra.
Qed.
(** The component kept after an operation on the boundaries is one of the results, and the
    biggest of them when there are several. *)
Theorem C67_biggest :
  forall l r, select_one l = Value r -> l <> [] ->
  In r l /\ forall s, In s l -> (2 <= length l)%nat -> ring_area s <= ring_area r.
Proof.
  assert (G : forall l best a, (snd best = a -> ring_area (snd best) = fst best \/ fst best = 0) -> 
    let b := biggest best l in
    fst best <= fst b /\ (b = best \/ (In (snd b) l /\ fst b = ring_area (snd b))) /\ forall s, In s l -> ring_area s <= fst b).
  { induction l as [|r l IH]; intros best a H; cbn; [split; [lra|split; [now left|easy]]|].
    destruct (Rlt_dec (fst best) (ring_area r)) as [L|L].
    - destruct (IH (ring_area r, r) r) as [A [B C]]; [intros _; now left|]. cbn [fst snd] in *.
      split; [lra|]. split.
      + destruct B as [B|[B1 B2]]; [right; rewrite B; cbn; auto|right; auto].
      + intros s [<-|S]; [exact A|now apply C].
    - destruct (IH best a H) as [A [B C]]. split; [easy|]. split; [destruct B as [B|[B1 B2]]; auto|].
      intros s [<-|S]; [lra|now apply C]. }
  intros l r H N. destruct l as [|a [|b l]]; [easy|injection H as <-; split; [now left|cbn; lia]|].
  cbn [select_one] in H. destruct (Rle_dec _ _) as [Z|Z]; [easy|]. injection H as <-.
  destruct (G (a :: b :: l) (0, a) a) as [A [[B|[B1 B2]] C]]; [now right| |].
  - exfalso. apply Z. change (fst (biggest (0, a) (a :: b :: l)) <= 0). rewrite B. cbn. lra.
  - split; [exact B1|]. intros s S _. change (ring_area s <= ring_area (snd (biggest (0, a) (a :: b :: l)))). rewrite <- B2. now apply C.
Qed.
(** A merge keeps the plane of the polygon. When the union gives nothing, it changes nothing;
    else the polygon is the simplification of the part of the union selected. *)
Theorem C67_merge :
  forall p q q' l r, project q (x_axis p) (y_axis p) (center p) = Value q' ->
  project q' (x_axis p) (y_axis p) (center p) = Value q' ->
  union (outline p) (outline q') = l -> select_one l = Value r -> ~ In [] l ->
  (l = [] -> merge_union simplified valid union p q = Value p) /\
  (l <> [] -> exists p', merge_union simplified valid union p q = Value p' /\
     x_axis p' = x_axis p /\ y_axis p' = y_axis p /\ center p' = center p /\
     stored_area p' = ring_area (outline p') /\ (0 <= ring_area r -> ring_area r * (3 / 4) <= stored_area p') /\
     (outline p' = r \/ outline p' = simplified r (Rmax (ring_area r / 10 ^ 5) 10) /\ valid (outline p') = true)).
Proof.
  intros p q q' l r P P' U S NE. unfold merge_union, union_one. rewrite P. cbn [bind]. rewrite P'. cbn [bind]. rewrite U, S. cbn [bind].
  split.
  - intros ->. cbn in S. injection S as <-. reflexivity.
  - intros N. destruct (C67_biggest l r S N) as [I _]. destruct r as [|a r]; [easy|].
    eexists. split; [reflexivity|]. unfold simplify. cbn [outline center x_axis y_axis]. rewrite area_ring.
    destruct (valid _) eqn:V; [destruct (Rlt_dec _ _)|]; cbn [outline stored_area x_axis y_axis center]; repeat split; auto; lra.
Qed.
Theorem C67_merge_keeps_plane :
  forall p q p', merge_union simplified valid union p q = Value p' ->
  x_axis p' = x_axis p /\ y_axis p' = y_axis p /\ center p' = center p /\
  (p' = p \/ stored_area p' = ring_area (outline p')).
Proof.
  intros p q p' H. unfold merge_union in H. apply bind_value in H. destruct H as [q' [_ H]]. apply bind_value in H. destruct H as [r [_ H]].
  destruct r; [injection H as <-; auto|]. injection H as <-.
  split; [|split; [|split; [|right; apply simplify_area]]]; unfold simplify; destruct (valid _); try destruct (Rlt_dec _ _); reflexivity.
Qed.
End History.
Print Assumptions C67_area_is_current.
Print Assumptions C67_biggest.
Print Assumptions C67_merge.

Lemma approx_refl v : is_approx v v = true.
Proof.
  unfold is_approx. destruct (Rle_dec _ _) as [|N]; [easy|]. exfalso. apply N.
  replace (sqn (vsub v v)) with 0 by (destruct v; v3unfold; ring). rewrite Rmin_left by lra.
  pose proof (sqn_nonneg v). apply Rmult_le_pos; [|easy]. simpl. lra.
Qed.
Lemma project_self p : frame (x_axis p) (y_axis p) -> project p (x_axis p) (y_axis p) (center p) = Value p.
Proof.
  intros F. unfold project, check, same_frame. rewrite (unit_norm_ok _ (proj1 F)), orthogonal_ok by apply F.
  now rewrite !approx_refl.
Qed.
(** A far bigger square in the same plane *)
Definition far_square : list point2 := [(10, 10); (10, 12); (12, 12); (12, 10); (10, 10)].
Definition far_at (c : vec) : polygon := mkPolygon far_square c (mkV 1 0 0) (mkV 0 1 0) 4.
Lemma far_sound c : sound (far_at c).
Proof.
  assert (A : ring_area far_square = 4) by (unfold ring_area, far_square; cbn; field).
  split; [unfold frame, dot; cbn; repeat split; ring|]. split; [split; [now intros d|cbn [outline far_at]; lra]|]. cbn. lra.
Qed.
(** A merge can lose the polygon: when the two boundaries do not touch, their union has two
    parts, and the smaller one is dropped. *)
Theorem C67_merge_keeps_polygon_refuted :
  exists simplified valid union p q p', sound p /\ sound q /\
    union (outline p) (outline q) = [outline p; outline q] /\
    merge_union simplified valid union p q = Value p' /\ outline p' = outline q /\
    (forall v, In v (outline p) -> ~ In v (outline p')).
Proof.
  exists (fun r _ => r), (fun _ => true), (fun a b => [a; b]), (square_at v0), (far_at v0).
  exists (far_at v0). split; [apply square_sound|]. split; [apply far_sound|]. split; [easy|].
  assert (A1 : ring_area square = 1) by apply square_proper.
  assert (A2 : ring_area far_square = 4) by (unfold ring_area, far_square; cbn; field).
  assert (P : project (far_at v0) (x_axis (square_at v0)) (y_axis (square_at v0)) (center (square_at v0)) = Value (far_at v0)).
  { change (project (far_at v0) (x_axis (far_at v0)) (y_axis (far_at v0)) (center (far_at v0)) = Value (far_at v0)).
    apply project_self. apply far_sound. }
  split; [|split; [easy|]].
  - unfold merge_union, union_one. rewrite P. cbn [bind]. rewrite P. cbn [bind outline far_at square_at select_one biggest fst snd].
    rewrite A1, A2. destruct (Rlt_dec 0 1); [|lra]. cbn [fst snd]. destruct (Rlt_dec 1 4); [|lra]. cbn [fst snd].
    destruct (Rle_dec 4 0); [lra|]. cbn [bind]. unfold far_square at 1. f_equal. unfold simplify. cbn [outline center x_axis y_axis].
    rewrite area_ring. fold far_square. rewrite A2. destruct (Rlt_dec _ _); [|lra]. reflexivity.
  - cbn [outline square_at far_at]. unfold square, far_square. intros [a b] H G. cbn in H, G.
    decompose [or] H; try easy; match goal with E : (_, _) = (a, b) |- _ => injection E as <- <- end;
      decompose [or] G; try easy; match goal with E : (_, _) = (_, _) |- _ => injection E; intros; lra end.
Qed.
Example C67_example :
  exists p p', make_polygon square (mkV 1 0 0) (mkV 0 1 0) (mkV 5 0 0) = Value p /\ stored_area p = 1 /\
  run_ops (fun r _ => r) (fun _ => true) (fun a b => [a; b])
          [ToWorld (camera_to_world (mkQuat (3 / 5) (4 / 5) 0 0) (mkV 1 2 3)); Simplify] p = Value p' /\ stored_area p' = 1.
Proof.
  assert (A1 : ring_area square = 1) by apply square_proper.
  assert (F : frame (mkV 1 0 0) (mkV 0 1 0)) by (unfold frame, dot; cbn; repeat split; ring).
  rewrite make_polygon_ok by exact F. rewrite correct_id by apply square_proper. rewrite area_ring, A1.
  eexists. eexists. split; [reflexivity|]. split; [easy|]. cbn [run_ops run_op]. unfold to_world_space.
  assert (U : unit_quat (mkQuat (3 / 5) (4 / 5) 0 0)) by (unfold unit_quat; cbn; lra).
  pose proof (move_ok (camera_to_world (mkQuat (3 / 5) (4 / 5) 0 0) (mkV 1 2 3)) (square_at (mkV 5 0 0))
    (camera_to_world_rigid _ _ U) (square_sound _)) as M. unfold square_at in M. rewrite M. cbn [bind].
  split; [reflexivity|]. unfold simplify. cbn [outline stored_area center x_axis y_axis]. rewrite area_ring, A1.
  destruct (Rlt_dec _ _); [easy|easy].
Qed.
