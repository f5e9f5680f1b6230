(** The debug image (C103). *)
From Verif Require Import DisplaySpec GeometryProps InverseDepthProps OptFeatureProps PolygonProps VisibilityProps.
From Coq Require Import String DecimalString DecimalPos DecimalN Ascii.
From Coq Require Import Bool List Lia Lra Reals ZArith.
Import ListNotations.
From Verif Require Import Vec3.
Local Open Scope R_scope.

Lemma to_int_iff u z : to_int u = Some z <-> pixel_of u z.
Proof.
  unfold to_int, pixel_of. destruct (rle 0 u) eqn:E.
  - rewrite rle_iff in E. pose proof (base_Int_part u) as [B1 B2].
    destruct (((-2147483648 <=? Int_part u) && (Int_part u <=? 2147483647))%Z) eqn:K.
    + apply andb_true_iff in K as [K1 K2]. apply Z.leb_le in K1, K2. split.
      * intros [= <-]. split; [lia|]. left. split; [exact E|]. split; lra.
      * intros [_ [[_ H]|[H _]]]; [|lra]. f_equal. assert (Int_part u < z + 1 /\ z < Int_part u + 1)%Z; [|lia].
        split; apply lt_IZR; rewrite plus_IZR; lra.
    + split; [discriminate|]. intros [R [[_ H]|[H _]]]; [|lra]. exfalso.
      assert (z = Int_part u) as ->. { assert (Int_part u < z + 1 /\ z < Int_part u + 1)%Z; [|lia]. split; apply lt_IZR; rewrite plus_IZR; lra. }
      apply andb_false_iff in K. rewrite !Z.leb_gt in K. lia.
  - assert (N : u < 0). { destruct (Rlt_le_dec u 0) as [L|L]; [exact L|]. rewrite <- rle_iff in L. congruence. }
    pose proof (base_Int_part (- u)) as [B1 B2].
    assert (U : forall z, IZR z - 1 < u <= IZR z -> z = (- Int_part (- u))%Z).
    { intros y H. assert (- Int_part (- u) < y + 1 /\ y < - Int_part (- u) + 1)%Z; [|lia].
      split; apply lt_IZR; rewrite plus_IZR, opp_IZR; lra. }
    destruct (((-2147483648 <=? - Int_part (- u)) && (- Int_part (- u) <=? 2147483647))%Z) eqn:K.
    + apply andb_true_iff in K as [K1 K2]. apply Z.leb_le in K1, K2. split.
      * intros [= <-]. split; [lia|]. right. split; [exact N|]. rewrite opp_IZR. split; lra.
      * intros [_ [[H _]|[_ H]]]; [lra|]. f_equal. symmetry. now apply U.
    + split; [discriminate|]. intros [R [[H _]|[_ H]]]; [lra|]. exfalso. apply U in H. subst z.
      apply andb_false_iff in K. rewrite !Z.leb_gt in K. lia.
Qed.
Lemma to_int_image u n : image_size n -> 0 <= u <= IZR n -> exists z, to_int u = Some z.
Proof.
  intros [S1 S2] [U1 U2]. exists (Int_part u). apply to_int_iff. pose proof (base_Int_part u) as [B1 B2]. split.
  - assert (-1 < Int_part u < n + 1)%Z; [|lia]. split; apply lt_IZR; rewrite ?plus_IZR; lra.
  - left. split; [exact U1|]. split; lra.
Qed.

(** ** The points *)

(** A 3D point of the map is drawn exactly when it is visible: a disc of its colour on the pixel
    where it is seen, with a red dot in it when it has no match. *)
Theorem C103_point : forall crossings fx fy cx cy width height w2c c p matched color, image_size width -> image_size height ->
  let drawn := draw crossings (intrinsics fx fy cx cy) (IZR width) (IZR height) w2c c (mkItem (PointShape p) matched color) in
  (seen_in fx fy cx cy w2c p (in_image (IZR width) (IZR height)) ->
   exists u v x y, seen_at fx fy cx cy (point_to_camera w2c p) u v /\ pixel_of u x /\ pixel_of v y /\
     drawn = Draws (if matched then [Disc x y 3 c] else [Disc x y 3 c; Disc x y 1 (0, 0, 255)%Z])) /\
  (~ seen_in fx fy cx cy w2c p (in_image (IZR width) (IZR height)) -> drawn = Draws []).
Proof.
  intros crossings fx fy cx cy width height w2c c p matched color W H drawn. unfold drawn, draw. cbn [f_shape f_matched].
  rewrite <- C86_point_visible. unfold point_visible, draw_point.
  destruct (camera_to_screen (intrinsics fx fy cx cy) (point_to_camera w2c p)) as [s|] eqn:E; [|split; [discriminate|reflexivity]].
  destruct (in_screen_b (IZR width) (IZR height) s) eqn:I.
  - split; [intros _|intros X; now destruct X].
    unfold in_screen_b in I. rewrite !andb_true_iff, !inside_iff in I. destruct I as [[IX IY] IZ]. rewrite IZ. cbn [andb].
    destruct (to_int_image _ _ W IX) as [x X], (to_int_image _ _ H IY) as [y Y]. rewrite X, Y.
    apply to_int_iff in X, Y. exists (vx s), (vy s), x, y. split; [|split; [exact X|split; [exact Y|now destruct matched]]].
    destruct (Req_dec (vz (point_to_camera w2c p)) 0) as [Z|Z].
    + unfold camera_to_screen in E. rewrite Z in E. destruct (Req_EM_T 0 0); [discriminate|easy].
    + rewrite to_screen_value in E by exact Z. injection E as <-. cbn [vx vy]. split; reflexivity.
  - split; [discriminate|]. intros _. now rewrite andb_false_r.
Qed.
Print Assumptions C103_point.

Lemma line_image a b width height c thickness : image_size width -> image_size height ->
  in_image (IZR width) (IZR height) a -> in_image (IZR width) (IZR height) b ->
  exists x0 y0 x1 y1, pixel_of (fst a) x0 /\ pixel_of (snd a) y0 /\ pixel_of (fst b) x1 /\ pixel_of (snd b) y1 /\
    line_to a b c thickness = Some (Line x0 y0 x1 y1 c thickness).
Proof.
  intros W H [A1 A2] [B1 B2]. unfold line_to.
  destruct (to_int_image _ _ W A1) as [x0 X0], (to_int_image _ _ H A2) as [y0 Y0].
  destruct (to_int_image _ _ W B1) as [x1 X1], (to_int_image _ _ H B2) as [y1 Y1]. rewrite X0, Y0, X1, Y1.
  exists x0, y0, x1, y1. now rewrite <- !to_int_iff.
Qed.
(** A point of unknown depth is drawn exactly when a part of the segment of its possible positions
    is in the image, as two lines between the same pixels of this part: one thick, blue when it is
    matched and red when it is not, and one of its colour. *)
Theorem C103_ray : forall crossings fx fy cx cy width height w2c c p variance matched color a b,
  image_size width -> image_size height ->
  screen_segment (intrinsics fx fy cx cy) w2c p variance = Some (a, b) ->
  gives_crossings crossings (screen_boundary (IZR width) (IZR height)) (vx a, vy a) (vx b, vy b) ->
  let drawn := draw crossings (intrinsics fx fy cx cy) (IZR width) (IZR height) w2c c (mkItem (RayShape p variance) matched color) in
  let visible := (exists q, on_seg (vx a, vy a) (vx b, vy b) q /\ in_frame (IZR width) (IZR height) q) \/
                 (in_image (IZR width) (IZR height) (vx a, vy a) /\ in_image (IZR width) (IZR height) (vx b, vy b)) in
  (visible -> exists p q x0 y0 x1 y1,
     (forall x, on_seg p q x -> on_seg (vx a, vy a) (vx b, vy b) x /\ in_image (IZR width) (IZR height) x) /\
     pixel_of (fst p) x0 /\ pixel_of (snd p) y0 /\ pixel_of (fst q) x1 /\ pixel_of (snd q) y1 /\
     drawn = Draws [Line x0 y0 x1 y1 (if matched then (255, 0, 0)%Z else (0, 0, 255)%Z) 5; Line x0 y0 x1 y1 c 3]) /\
  (~ visible -> drawn = Draws []).
Proof.
  intros crossings fx fy cx cy width height w2c c p variance matched color a b W H E G drawn visible.
  assert (W2 : 2 <= IZR width) by (apply IZR_le, W). assert (H2 : 2 <= IZR height) by (apply IZR_le, H).
  pose proof (C86_accepted crossings _ _ _ _ W2 H2 G) as A. fold visible in A.
  unfold drawn, draw. cbn [f_shape f_matched]. unfold draw_ray. rewrite E.
  destruct (clamp_to_screen crossings (IZR width) (IZR height) (vx a, vy a) (vx b, vy b)) as [[p1 q1]|] eqn:K.
  - split; [intros _|intros N; exfalso; apply N, A; discriminate].
    pose proof (C86_clamped_in_image _ _ _ _ _ _ _ W2 H2 G K) as C.
    destruct (C p1 (on_seg_start p1 q1)) as [_ P]. destruct (C q1 (on_seg_end p1 q1)) as [_ Q].
    rewrite (proj2 (in_screen_2d_iff _ _ p1) P), (proj2 (in_screen_2d_iff _ _ q1) Q). cbn [andb].
    destruct (line_image p1 q1 width height (if matched then blue else red) 5 W H P Q) as (x0 & y0 & x1 & y1 & A1 & A2 & A3 & A4 & L1).
    destruct (line_image p1 q1 width height c 3 W H P Q) as (x0' & y0' & x1' & y1' & B1 & B2 & B3 & B4 & L2).
    assert (x0' = x0 /\ y0' = y0 /\ x1' = x1 /\ y1' = y1) as (-> & -> & -> & ->).
    { rewrite <- to_int_iff in A1, A2, A3, A4, B1, B2, B3, B4. repeat split; congruence. }
    exists p1, q1, x0, y0, x1, y1. repeat (split; [assumption|]). rewrite L1, L2. now destruct matched.
  - split; [|reflexivity]. intros V. apply A in V. now destruct V.
Qed.
Print Assumptions C103_ray.
(** With no segment at all, nothing is drawn. *)
Theorem C103_no_ray : forall crossings fx fy cx cy width height w2c c p variance matched color,
  screen_segment (intrinsics fx fy cx cy) w2c p variance = None ->
  draw crossings (intrinsics fx fy cx cy) width height w2c c (mkItem (RayShape p variance) matched color) = Draws [].
Proof. intros. unfold draw. cbn [f_shape]. unfold draw_ray. now rewrite H. Qed.
Print Assumptions C103_no_ray.

(** ** The planes *)

(** A plane with no match is not drawn. *)
Theorem C103_unmatched_plane : forall crossings k width height w2c c p color,
  draw crossings k width height w2c c (mkItem (PlaneShape p) false color) = Draws [].
Proof. reflexivity. Qed.
Print Assumptions C103_unmatched_plane.

Lemma line_edge fx fy cx cy c a b : vz a <> 0 -> vz b <> 0 -> forall s,
  line_to (pixel fx fy cx cy a) (pixel fx fy cx cy b) c 2 = Some s <-> edge_line fx fy cx cy c a b s.
Proof.
  intros A B s. unfold line_to, edge_line, pixel, seen_at. cbn [fst snd].
  destruct (to_int (fx * vx a / vz a + cx)) as [x0|] eqn:X0.
  2:{ split; [discriminate|]. intros (ua & va & ub & vb & xa & ya & xb & yb & [-> ->] & [-> ->] & P & _). apply to_int_iff in P. congruence. }
  destruct (to_int (fy * vy a / vz a + cy)) as [y0|] eqn:Y0.
  2:{ split; [discriminate|]. intros (ua & va & ub & vb & xa & ya & xb & yb & [-> ->] & [-> ->] & _ & P & _). apply to_int_iff in P. congruence. }
  destruct (to_int (fx * vx b / vz b + cx)) as [x1|] eqn:X1.
  2:{ split; [discriminate|]. intros (ua & va & ub & vb & xa & ya & xb & yb & [-> ->] & [-> ->] & _ & _ & P & _). apply to_int_iff in P. congruence. }
  destruct (to_int (fy * vy b / vz b + cy)) as [y1|] eqn:Y1.
  2:{ split; [discriminate|]. intros (ua & va & ub & vb & xa & ya & xb & yb & [-> ->] & [-> ->] & _ & _ & _ & P & _). apply to_int_iff in P. congruence. }
  split.
  - intros [= <-]. do 4 eexists. exists x0, y0, x1, y1. split; [split; reflexivity|]. split; [split; reflexivity|].
    rewrite <- !to_int_iff. auto.
  - intros (ua & va & ub & vb & xa & ya & xb & yb & [-> ->] & [-> ->] & P1 & P2 & P3 & P4 & ->). rewrite <- to_int_iff in P1, P2, P3, P4.
    congruence.
Qed.
Definition on_pixel fx fy cx cy (v : vec) : vec := mkV (fst (pixel fx fy cx cy v)) (snd (pixel fx fy cx cy v)) (vz v).
Lemma loop_edges fx fy cx cy c : forall pts a, Forall (fun v => vz v <> 0) (a :: pts) ->
  let d := display_loop c (Some (on_pixel fx fy cx cy a)) (map (on_pixel fx fy cx cy) pts) in
  (forall l, d = Draws l <-> edges_drawn fx fy cx cy c (a :: pts) l) /\
  (d = Undefined <-> ~ exists l, edges_drawn fx fy cx cy c (a :: pts) l) /\ d <> Terminates.
Proof.
  induction pts as [|b pts IH]; intros a F; cbn [map display_loop].
  - split; [|split]; [|split; [discriminate|]|discriminate].
    + intros l. split; [intros [= <-]; constructor|]. inversion 1. reflexivity.
    + intros N. exfalso. apply N. exists []. constructor.
  - inversion_clear F as [|? ? FA FB]. pose proof FB as FB0. inversion_clear FB0 as [|? ? FB1 _].
    destruct (IH b FB) as (D & U & T). clear IH.
    set (r := display_loop c (Some (on_pixel fx fy cx cy b)) (map (on_pixel fx fy cx cy) pts)) in *. clearbody r.
    change (vx (on_pixel fx fy cx cy a), vy (on_pixel fx fy cx cy a)) with (pixel fx fy cx cy a).
    change (vx (on_pixel fx fy cx cy b), vy (on_pixel fx fy cx cy b)) with (pixel fx fy cx cy b).
    change (vz (on_pixel fx fy cx cy a)) with (vz a). change (vz (on_pixel fx fy cx cy b)) with (vz b).
    pose proof (line_edge fx fy cx cy c a b FA FB1) as LE.
    destruct (Rlt_dec 0 (vz a)) as [PA|PA]; [destruct (Rlt_dec 0 (vz b)) as [PB|PB]|]; cbn [andb].
    + destruct (line_to (pixel fx fy cx cy a) (pixel fx fy cx cy b) c 2) as [s|] eqn:K; cbn [after].
      * assert (S : edge_line fx fy cx cy c a b s) by now apply LE.
        assert (S1 : forall s', edge_line fx fy cx cy c a b s' -> s' = s) by (intros s' X; apply LE in X; congruence).
        split; [|split].
        -- intros l. destruct r as [m| |].
           ++ split.
              ** intros [= <-]. constructor; auto. now apply D.
              ** intros X. inversion X as [| |? ? ? s' l' _ _ E X'|? ? ? ? N]; subst; [|exfalso; apply N; auto].
                 apply S1 in E. apply D in X'. cbn [app]. congruence.
           ++ split; [discriminate|]. intros X. exfalso. apply (proj1 U eq_refl).
              inversion X as [| |? ? ? s' l' _ _ E X'|? ? ? ? N X']; subst; eauto.
           ++ now destruct T.
        -- destruct r as [m| |]; [split; [discriminate|]| |now destruct T].
           ++ intros N. exfalso. apply N. exists (s :: m). constructor; auto. now apply D.
           ++ split; [|reflexivity]. intros _ (l & X). apply (proj1 U eq_refl).
              inversion X as [| |? ? ? s' l' _ _ E X'|? ? ? ? N X']; subst; eauto.
        -- destruct r; easy.
      * assert (N : forall s', ~ edge_line fx fy cx cy c a b s') by (intros s' X; apply LE in X; discriminate).
        split; [|split; [|discriminate]].
        -- intros l. split; [discriminate|]. intros X. inversion X as [| |? ? ? s' l' _ _ E X'|? ? ? ? O X']; subst; [now apply N in E|].
           exfalso. now apply O.
        -- split; [|reflexivity]. intros _ (l & X). inversion X as [| |? ? ? s' l' _ _ E X'|? ? ? ? O X']; subst; [now apply N in E|].
           exfalso. now apply O.
    + assert (N : ~ (0 < vz a /\ 0 < vz b)) by tauto. cbn [after]. replace (match r with Draws m => Draws ([] ++ m) | _ => r end) with r by now destruct r.
      assert (X : forall l, edges_drawn fx fy cx cy c (a :: b :: pts) l <-> edges_drawn fx fy cx cy c (b :: pts) l).
      { intros l. split; [|now apply edges_hidden]. intros X. inversion X; subst; [tauto|assumption]. }
      split; [|split; [|exact T]]; [intros l; now rewrite X|]. rewrite U. split; intros Y (l & L); apply Y; exists l; now apply X.
    + assert (N : ~ (0 < vz a /\ 0 < vz b)) by tauto. cbn [after]. replace (match r with Draws m => Draws ([] ++ m) | _ => r end) with r by now destruct r.
      assert (X : forall l, edges_drawn fx fy cx cy c (a :: b :: pts) l <-> edges_drawn fx fy cx cy c (b :: pts) l).
      { intros l. split; [|now apply edges_hidden]. intros X. inversion X; subst; [tauto|assumption]. }
      split; [|split; [|exact T]]; [intros l; now rewrite X|]. rewrite U. split; intros Y (l & L); apply Y; exists l; now apply X.
Qed.
Lemma display_edges fx fy cx cy c pts : Forall (fun v => vz v <> 0) pts ->
  let d := display_loop c None (map (on_pixel fx fy cx cy) pts) in
  (forall l, d = Draws l <-> edges_drawn fx fy cx cy c pts l) /\
  (d = Undefined <-> ~ exists l, edges_drawn fx fy cx cy c pts l) /\ d <> Terminates.
Proof.
  destruct pts as [|a pts]; intros F; cbn [map display_loop].
  - split; [|split; [split; [discriminate|]|discriminate]].
    + intros l. split; [intros [= <-]; constructor|]. inversion 1. reflexivity.
    + intros N. exfalso. apply N. exists []. constructor.
  - cbn [after]. pose proof (loop_edges fx fy cx cy c pts a F) as L. cbv zeta in L.
    set (r := display_loop c (Some (on_pixel fx fy cx cy a)) (map (on_pixel fx fy cx cy) pts)) in *. clearbody r.
    now replace (match r with Draws m => Draws ([] ++ m) | _ => r end) with r by now destruct r.
Qed.
Lemma plane_points fx fy cx cy q t w2c p pts :
  unit_quat q -> world_to_camera (camera_to_world q t) w2c -> sound p -> unprojected p = Value pts ->
  exists cp, to_camera_space w2c p = Value cp /\
   (Forall (fun v => vz (point_to_camera w2c v) <> 0) pts ->
    screen_points (intrinsics fx fy cx cy) cp (outline cp) = Value (Some (map (on_pixel fx fy cx cy) (map (point_to_camera w2c) pts)))) /\
   (Exists (fun v => vz (point_to_camera w2c v) = 0) pts -> screen_points (intrinsics fx fy cx cy) cp (outline cp) = Value None).
Proof.
  intros U I S EP. pose proof (camera_to_world_rigid q t U) as R.
  destruct (rigid_round_trip _ w2c (center p) R I) as [_ [_ R']].
  pose proof S as [F _]. rewrite unprojected_ok in EP by exact F. injection EP as <-.
  unfold to_camera_space. rewrite (rigid_to_camera w2c) by exact R'. rewrite move_ok by assumption.
  eexists. split; [reflexivity|]. cbn [outline].
  set (cp := mkPolygon (outline p) (point_to_world w2c (center p)) (mvmul (lin w2c) (x_axis p)) (mvmul (lin w2c) (y_axis p)) (stored_area p)).
  destruct (rigid_frame w2c _ _ R' F) as [_ [_ F']].
  assert (V : forall a, upt (center cp) (x_axis cp) (y_axis cp) a = point_to_camera w2c (upt (center p) (x_axis p) (y_axis p) a)).
  { intros [a b]. unfold cp, upt. cbn [center x_axis y_axis fst snd]. rewrite !(camera_affine q t), !rigid_point by assumption.
    rewrite !mvmul_add, !mvmul_scal. generalize (mvmul (lin w2c) (center p)) (mvmul (lin w2c) (x_axis p)) (mvmul (lin w2c) (y_axis p)) (col w2c).
    intros. v3ring. }
  split.
  - intros A. rewrite screen_points_value; [|exact F'|]. 2:{ rewrite Forall_map in A. eapply Forall_impl; [|exact A]. intros a Z. now rewrite V. }
    rewrite !map_map. do 2 f_equal. apply map_ext. intros a. cbv zeta. rewrite V. reflexivity.
  - intros A. apply screen_points_none; [exact F'|]. rewrite Exists_map in A. eapply Exists_impl; [|exact A]. intros a Z. cbv beta. now rewrite V.
Qed.
(** A matched plane is drawn as the lines between the successive points of its boundary that are
    both in front of the camera, at the pixels where they are seen. When one of these pixels is
    not an [int], the behaviour is undefined, and only then. When a point is at the depth of the
    camera, nothing is drawn. The program never ends there. *)
Theorem C103_plane : forall crossings fx fy cx cy width height q t w2c c p pts color,
  unit_quat q -> world_to_camera (camera_to_world q t) w2c -> sound p -> unprojected p = Value pts ->
  let drawn := draw crossings (intrinsics fx fy cx cy) width height w2c c (mkItem (PlaneShape p) true color) in
  let seen := map (point_to_camera w2c) pts in
  drawn <> Terminates /\
  (Forall (fun v => vz v <> 0) seen ->
   (forall l, drawn = Draws l <-> edges_drawn fx fy cx cy c seen l) /\
   (drawn = Undefined <-> ~ exists l, edges_drawn fx fy cx cy c seen l)) /\
  (Exists (fun v => vz v = 0) seen -> drawn = Draws []).
Proof.
  intros crossings fx fy cx cy width height q t w2c c p pts color U I S EP drawn seen.
  destruct (plane_points fx fy cx cy q t w2c p pts U I S EP) as (cp & EC & A & B).
  unfold drawn, draw. cbn [f_shape f_matched]. unfold draw_plane. cbn [negb]. rewrite EC. cbn [bind].
  assert (A' : Forall (fun v => vz v <> 0) seen -> screen_points (intrinsics fx fy cx cy) cp (outline cp) = Value (Some (map (on_pixel fx fy cx cy) seen)))
    by (intros X; apply A; unfold seen in X; now rewrite Forall_map in X).
  assert (B' : Exists (fun v => vz v = 0) seen -> screen_points (intrinsics fx fy cx cy) cp (outline cp) = Value None)
    by (intros X; apply B; unfold seen in X; now rewrite Exists_map in X).
  clearbody seen. clear A B. split; [|split].
  - destruct (Exists_dec (fun v => vz v = 0) seen (fun v => Req_EM_T (vz v) 0)) as [X|X].
    + rewrite (B' X). discriminate.
    + assert (F : Forall (fun v => vz v <> 0) seen) by now apply Forall_Exists_neg. rewrite (A' F).
      now destruct (display_edges fx fy cx cy c seen F) as (_ & _ & T).
  - intros F. rewrite (A' F). destruct (display_edges fx fy cx cy c seen F) as (D & V & _). split; [exact D|exact V].
  - intros X. rewrite (B' X). reflexivity.
Qed.
Print Assumptions C103_plane.
(** Drawing a plane that is in front of the camera can be undefined: a point of its boundary near
    the camera is seen out of the range of the integers. *)
Theorem C103_near_plane_refuted : exists w2c p pts,
  world_to_camera (camera_to_world (mkQuat 1 0 0 0) v0) w2c /\ sound p /\ 0 < stored_area p /\ unprojected p = Value pts /\
  Forall (fun v => 0 < vz (point_to_camera w2c v)) pts /\
  forall crossings c color, draw crossings (intrinsics 500 500 320 240) 640 480 w2c c (mkItem (PlaneShape p) true color) = Undefined.
Proof.
  assert (U : unit_quat (mkQuat 1 0 0 0)) by (unfold unit_quat; cbn; lra).
  destruct (C46_inverse_exists _ v0 U) as (w2c & W & _). exists w2c.
  set (n := 1 / 10 ^ 8).
  assert (N : 0 < n) by (unfold n; lra).
  set (o := [(n, 0); (n, 1); (n + 1, 1); (n + 1, 0); (n, 0)] : list point2).
  assert (A : ring_area o = 1 \/ ring_area (rev o) = 1).
  { left. unfold ring_area, o. cbn [length Nat.ltb Nat.leb edges fst snd]. lra. }
  destruct A as [A|A].
  2:{ unfold ring_area, o in A. cbn [length Nat.ltb Nat.leb edges rev app fst snd] in A. lra. }
  set (c := mkPolygon o (mkV 1 0 0) (mkV 0 0 1) (mkV 0 1 0) (ring_area o)).
  assert (S : sound c).
  { split; [unfold c; cbn [x_axis y_axis]; repeat split; unfold dot; cbn [vx vy vz]; ring|].
    unfold c. cbn [outline stored_area]. split; [split; [intros d; reflexivity|rewrite A; lra]|reflexivity]. }
  destruct (C48_moves _ v0 w2c c U W S) as (p & pts & _ & SP & O & AR & UC & UP & B).
  exists p, (map (point_to_world (camera_to_world (mkQuat 1 0 0 0) v0)) pts).
  split; [exact W|]. split; [exact SP|]. split; [rewrite AR; unfold c; cbn [stored_area]; rewrite A; lra|]. split; [exact UP|].
  rewrite unprojected_ok in UC by apply S.
  assert (EP : pts = map (upt (center c) (x_axis c) (y_axis c)) (outline c)) by congruence.
  assert (BACK : forall v, point_to_camera w2c (point_to_world (camera_to_world (mkQuat 1 0 0 0) v0) v) = v).
  { intros v. now destruct (C46_inverse _ v0 w2c v U W). }
  assert (SEEN : map (point_to_camera w2c) (map (point_to_world (camera_to_world (mkQuat 1 0 0 0) v0)) pts) =
                 [mkV 1 0 n; mkV 1 1 n; mkV 1 1 (n + 1); mkV 1 0 (n + 1); mkV 1 0 n]).
  { rewrite map_map. rewrite (map_ext _ (fun v => v)) by exact BACK. rewrite map_id, EP. unfold c, o, upt.
    cbn [outline map center x_axis y_axis fst snd vx vy vz vadd vscal].
    repeat (apply f_equal2; [apply vec_eq; cbn; ring|]). reflexivity. }
  split.
  - rewrite <- Forall_map with (P := fun v => 0 < vz v). rewrite SEEN. repeat (apply Forall_cons; [cbn [vz]; lra|]). apply Forall_nil.
  - intros crossings cl color.
    destruct (C103_plane crossings 500 500 320 240 640 480 _ v0 w2c cl p _ color U W SP UP) as (_ & D & _).
    cbv zeta in D. rewrite SEEN in D. destruct D as [_ V].
    + repeat (apply Forall_cons; [cbn [vz]; lra|]). apply Forall_nil.
    + apply V. intros (l & L). inversion L as [| |? ? ? s l' _ _ E _|? ? ? ? X]; subst.
      * destruct E as (ua & va & ub & vb & xa & ya & xb & yb & [-> _] & _ & [RA [[_ P]|[P _]]] & _).
        -- cbn [vx vz] in P. destruct P as [_ P]. destruct RA as [_ RA]. apply IZR_le in RA.
           assert (500 * 1 / n = 50000000000) by (unfold n; field). lra.
        -- cbn [vx vz] in P. assert (0 < 500 * 1 / n) by (apply Rdiv_lt_0_compat; lra). lra.
      * apply X. cbn [vz]. lra.
Qed.
Print Assumptions C103_near_plane_refuted.

(** ** The image *)

Lemma after_draws a b l : after a b = Draws l <-> exists x y, a = Draws x /\ b = Draws y /\ l = x ++ y.
Proof.
  split.
  - destruct a as [x| |]; cbn [after]; try discriminate. destruct b as [y| |]; try discriminate. intros [= <-]. eauto.
  - intros (x & y & -> & -> & ->). reflexivity.
Qed.
Definition drawn_as crossings k w h w2c (fc : item * color) (d : list stroke) : Prop :=
  draw crossings k w h w2c (snd fc) (fst fc) = Draws d.
Lemma draw_all_iff crossings k w h w2c color_of items l :
  draw_all crossings k w h w2c color_of items = Draws l <->
  exists parts, Forall2 (drawn_as crossings k w h w2c) (map (fun f => (f, color_of f)) items) parts /\ l = concat parts.
Proof.
  revert l. induction items as [|f items IH]; intros l; cbn [draw_all fold_right map].
  - split.
    + intros [= <-]. exists []. split; [constructor|reflexivity].
    + intros (parts & F & ->). inversion F. reflexivity.
  - rewrite after_draws. fold (draw_all crossings k w h w2c color_of items). split.
    + intros (x & y & X & Y & ->). apply IH in Y as (parts & F & ->). exists (x :: parts). split; [constructor; [exact X|exact F]|reflexivity].
    + intros (parts & F & ->). inversion F as [|? d ? parts' D F']; subst. exists d, (concat parts'). split; [exact D|]. split; [|reflexivity].
      apply IH. eauto.
Qed.
Lemma parts_app {A B} (P : A -> B -> Prop) a b r : Forall2 P (a ++ b) r <-> exists x y, Forall2 P a x /\ Forall2 P b y /\ r = x ++ y.
Proof.
  split.
  - intros F. apply Forall2_app_inv_l in F as (x & y & X & Y & ->). eauto.
  - intros (x & y & X & Y & ->). now apply Forall2_app.
Qed.
Lemma draw_map_iff crossings k w h w2c staged m l :
  draw_on_image crossings k w h w2c staged m = Draws l <->
  exists parts, Forall2 (drawn_as crossings k w h w2c) (shown staged [m]) parts /\ l = concat parts.
Proof.
  unfold draw_on_image, shown. cbn [flat_map]. rewrite app_nil_r. destruct (s_activated m); cbn [negb].
  - rewrite after_draws. destruct staged.
    + split.
      * intros (x & y & X & Y & ->). apply draw_all_iff in X as (p1 & F1 & ->), Y as (p2 & F2 & ->).
        exists (p1 ++ p2). rewrite concat_app. split; [|reflexivity]. now apply Forall2_app.
      * intros (parts & F & ->). apply parts_app in F as (p1 & p2 & F1 & F2 & ->). rewrite concat_app. exists (concat p1), (concat p2).
        rewrite !draw_all_iff. split; [now exists p1|split; [now exists p2|reflexivity]].
    + cbn [app]. split.
      * intros (x & y & [= <-] & Y & ->). now apply draw_all_iff in Y.
      * intros (parts & F & ->). exists [], (concat parts). split; [reflexivity|]. rewrite draw_all_iff. split; [now exists parts|reflexivity].
  - split.
    + intros [= <-]. exists []. split; [constructor|reflexivity].
    + intros (parts & F & ->). inversion F. reflexivity.
Qed.
Lemma draw_maps_iff crossings k w h w2c staged maps l :
  fold_right (fun m d => after (draw_on_image crossings k w h w2c staged m) d) (Draws []) maps = Draws l <->
  exists parts, Forall2 (drawn_as crossings k w h w2c) (shown staged maps) parts /\ l = concat parts.
Proof.
  revert l. induction maps as [|m maps IH]; intros l; cbn [fold_right].
  - split.
    + intros [= <-]. exists []. split; [constructor|reflexivity].
    + intros (parts & F & ->). inversion F. reflexivity.
  - rewrite after_draws. replace (shown staged (m :: maps)) with (shown staged [m] ++ shown staged maps)
      by (unfold shown; cbn [flat_map]; now rewrite app_nil_r). split.
    + intros (x & y & X & Y & ->). apply draw_map_iff in X as (p1 & F1 & ->). apply IH in Y as (p2 & F2 & ->).
      exists (p1 ++ p2). rewrite concat_app. split; [|reflexivity]. now apply Forall2_app.
    + intros (parts & F & ->). apply parts_app in F as (p1 & p2 & F1 & F2 & ->). rewrite concat_app. exists (concat p1), (concat p2).
      rewrite draw_map_iff. split; [now exists p1|split; [|reflexivity]]. apply IH. now exists p2.
Qed.
(** The debug image is a black band over the top of the image, the frame rate when the duration is
    positive, the counts of the maps, every shown feature with its colour, staged first in each
    map, and over all that a red overlay when the tracking is lost. *)
Theorem C103_image : forall crossings k width height lost maps w2c elapsed staged l,
  get_debug_image crossings k width height lost maps w2c elapsed staged = Draws l <->
  exists parts,
    Forall2 (fun fc part => draw crossings k (IZR width) (IZR height) w2c (snd fc) (fst fc) = Draws part) (shown staged maps) parts /\
    l = [Rectangle 0 0 width (height / 25) (0, 0, 0)%Z] ++
        (if Rlt_dec 0 elapsed then [Text (padded (decimal (Z.to_N (shown_rate elapsed))) ++ " fps") 15 15] else []) ++
        [Text (fold_right (fun m s => label m ++ s)%string ""%string maps) (width * 15 / 100) 15] ++
        concat parts ++ (if lost then [Overlay (0, 0, 255)%Z] else []).
Proof.
  intros. unfold get_debug_image, draw_maps. rewrite after_draws. split.
  - intros (x & y & [= <-] & Y & ->). apply after_draws in Y as (b & o & B & [= <-] & ->). apply after_draws in B as (h & f & [= <-] & F & ->).
    apply draw_maps_iff in F as (parts & F & ->). exists parts. split; [exact F|]. unfold rate_text, head_band.
    unfold black, red. destruct (Rlt_dec 0 elapsed), lost; cbn [app]; reflexivity.
  - intros (parts & F & ->). eexists _, _. split; [reflexivity|]. rewrite after_draws. split.
    + eexists _, _. split; [|split; reflexivity]. rewrite after_draws. eexists _, _. split; [reflexivity|]. rewrite draw_maps_iff.
      split; [now exists parts|reflexivity].
    + unfold rate_text, head_band, black, red. destruct (Rlt_dec 0 elapsed), lost; cbn [app]; reflexivity.
Qed.
Print Assumptions C103_image.

Lemma after_no_overlay a b : (forall l, a = Draws l -> forall c, ~ In (Overlay c) l) -> (forall l, b = Draws l -> forall c, ~ In (Overlay c) l) ->
  forall l, after a b = Draws l -> forall c, ~ In (Overlay c) l.
Proof.
  intros A B l E c I. apply after_draws in E as (x & y & -> & -> & ->). apply in_app_iff in I as [I|I].
  - now apply (A x eq_refl c). - now apply (B y eq_refl c).
Qed.
Lemma loop_no_overlay c0 : forall pts p l, display_loop c0 p pts = Draws l -> forall c, ~ In (Overlay c) l.
Proof.
  induction pts as [|s pts IH]; intros p; cbn [display_loop].
  - now intros l [= <-] c [].
  - apply after_no_overlay; [|apply IH]. intros l E c. destruct p as [p|]; [|injection E as <-; now intros []].
    destruct (_ && _)%bool; [|injection E as <-; now intros []].
    destruct (line_to _ _ _ _) as [ln|] eqn:K; [|discriminate]. injection E as <-. unfold line_to in K.
    repeat match type of K with match ?x with _ => _ end = _ => destruct x; try discriminate end. injection K as <-. intros [X|[]]. discriminate.
Qed.
Lemma draw_no_overlay crossings k w h w2c c0 f l : draw crossings k w h w2c c0 f = Draws l -> forall c, ~ In (Overlay c) l.
Proof.
  unfold draw. intros E c. destruct (f_shape f).
  - unfold draw_point in E. destruct (camera_to_screen _ _); [|injection E as <-; now intros []].
    destruct (_ && _)%bool; [|injection E as <-; now intros []].
    destruct (to_int _); [|discriminate]. destruct (to_int _); [|discriminate]. injection E as <-.
    destruct (f_matched f); cbn; intuition discriminate.
  - unfold draw_ray in E. destruct (screen_segment _ _ _ _) as [[a b]|]; [|injection E as <-; now intros []].
    destruct (clamp_to_screen _ _ _ _ _) as [[a' b']|]; [|injection E as <-; now intros []].
    destruct (_ && _)%bool; [|injection E as <-; now intros []].
    destruct (line_to _ _ _ 5) as [l1|] eqn:K; [|discriminate]. destruct (line_to _ _ _ 3) as [l2|] eqn:K'; [|discriminate].
    injection E as <-. unfold line_to in K, K'.
    repeat match type of K with match ?x with _ => _ end = _ => destruct x; try discriminate end. injection K as <-. injection K' as <-.
    cbn. intuition discriminate.
  - unfold draw_plane in E. destruct (negb _); [injection E as <-; now intros []|]. destruct (bind _ _); [|discriminate].
    now apply (loop_no_overlay _ _ _ _ E).
Qed.
(** The red overlay tells that the tracking is lost, and nothing else. *)
Theorem C103_overlay : forall crossings k width height lost maps w2c elapsed staged l,
  get_debug_image crossings k width height lost maps w2c elapsed staged = Draws l ->
  (In (Overlay (0, 0, 255)%Z) l <-> lost = true) /\ forall c, In (Overlay c) l -> c = (0, 0, 255)%Z.
Proof.
  intros crossings k width height lost maps w2c elapsed staged l E. apply C103_image in E as (parts & F & ->).
  assert (P : forall c, ~ In (Overlay c) (concat parts)).
  { intros c I. apply in_concat in I as (d & D & I). clear - F D I. induction F; [inversion D|].
    destruct D as [->|D]; [|now apply IHF]. now apply (draw_no_overlay _ _ _ _ _ _ _ _ H c). }
  assert (G : forall c, In (Overlay c) ([Rectangle 0 0 width (height / 25) (0, 0, 0)%Z] ++
        (if Rlt_dec 0 elapsed then [Text (padded (decimal (Z.to_N (shown_rate elapsed))) ++ " fps") 15 15] else []) ++
        [Text (fold_right (fun m s => label m ++ s)%string ""%string maps) (width * 15 / 100) 15] ++
        concat parts ++ (if lost then [Overlay (0, 0, 255)%Z] else [])) <-> lost = true /\ c = (0, 0, 255)%Z).
  { intros c. rewrite !in_app_iff. specialize (P c). destruct (Rlt_dec 0 elapsed), lost; cbn [In]; intuition (try discriminate; try congruence). }
  split; [|intros c I; now apply G in I]. rewrite G. tauto.
Qed.
Print Assumptions C103_overlay.

(** With no plane to show, the debug image is always defined and never ends the program. *)
Theorem C103_defined : forall crossings fx fy cx cy width height lost maps w2c elapsed staged,
  image_size width -> image_size height -> Forall (fun fc => is_point (fst fc)) (shown staged maps) ->
  (forall a b, gives_crossings crossings (screen_boundary (IZR width) (IZR height)) a b) ->
  exists l, get_debug_image crossings (intrinsics fx fy cx cy) width height lost maps w2c elapsed staged = Draws l.
Proof.
  intros crossings fx fy cx cy width height lost maps w2c elapsed staged W H F G.
  assert (X : exists parts, Forall2 (fun fc part => draw crossings (intrinsics fx fy cx cy) (IZR width) (IZR height) w2c (snd fc) (fst fc) = Draws part)
                (shown staged maps) parts).
  { induction F as [|[f c] l P F IH]; [exists []; constructor|]. destruct IH as [parts IH].
    assert (D : exists part, draw crossings (intrinsics fx fy cx cy) (IZR width) (IZR height) w2c c f = Draws part).
    { destruct f as [[p|p v|p] m c0]; cbn in P; [| |easy].
      - destruct (C103_point crossings fx fy cx cy width height w2c c p m c0 W H) as [A B].
        destruct (Classical_Prop.classic (seen_in fx fy cx cy w2c p (in_image (IZR width) (IZR height)))) as [S|S].
        + destruct (A S) as (u & v & x & y & _ & _ & _ & ->). eauto.
        + rewrite (B S). eauto.
      - destruct (screen_segment (intrinsics fx fy cx cy) w2c p v) as [[a b]|] eqn:S.
        + destruct (C103_ray crossings fx fy cx cy width height w2c c p v m c0 a b W H S (G _ _)) as [A B].
          match type of A with ?V -> _ => destruct (Classical_Prop.classic V) as [S'|S'] end.
          * destruct (A S') as (p' & q' & x0 & y0 & x1 & y1 & _ & _ & _ & _ & _ & ->). eauto.
          * rewrite (B S'). eauto.
        + rewrite C103_no_ray by exact S. eauto. }
    destruct D as [part D]. exists (part :: parts). constructor; [exact D|exact IH]. }
  destruct X as [parts X]. eexists. apply C103_image. exists parts. split; [exact X|reflexivity].
Qed.
Print Assumptions C103_defined.

(** ** The frame rate *)

Lemma rate_value t : 0 < t -> shown_rate t = (Int_part (1 / t) + 1)%Z.
Proof.
  intros T. unfold shown_rate, round. assert (P : 0 < 1 / t) by (apply Rdiv_lt_0_compat; lra).
  assert (rle 0 (1 / t + / 2) = true) as -> by (apply rle_iff; lra).
  replace (1 / t + / 2 + / 2) with (1 / t + 1) by lra.
  pose proof (base_Int_part (1 / t)) as [A1 A2]. pose proof (base_Int_part (1 / t + 1)) as [B1 B2].
  assert (Int_part (1 / t) + 1 < Int_part (1 / t + 1) + 1 /\ Int_part (1 / t + 1) < Int_part (1 / t) + 1 + 1)%Z; [|lia].
  split; apply lt_IZR; rewrite ?plus_IZR; lra.
Qed.
(** The frame rate shown is always greater than the real one, by one frame per second at most. *)
Theorem C103_rate : forall elapsed, 0 < elapsed -> 1 / elapsed < IZR (shown_rate elapsed) <= 1 / elapsed + 1.
Proof.
  intros t T. rewrite rate_value by exact T. pose proof (base_Int_part (1 / t)) as [A1 A2]. rewrite plus_IZR. lra.
Qed.
Print Assumptions C103_rate.
(** It is not the nearest one: thirty frames per second are shown as thirty-one. *)
Theorem C103_rate_refuted : exists elapsed, 0 < elapsed /\ 1 / elapsed = 30 /\ shown_rate elapsed = 31%Z.
Proof.
  exists (1 / 30). assert (E : 1 / (1 / 30) = 30) by field. split; [lra|]. split; [exact E|]. rewrite rate_value by lra. rewrite E.
  pose proof (base_Int_part 30) as [A1 A2].
  assert (29 < Int_part 30 < 31)%Z; [|lia]. split; apply lt_IZR; lra.
Qed.
Print Assumptions C103_rate_refuted.

(** ** The counts *)

Fixpoint no_space (s : string) : bool := match s with EmptyString => true | String a s => negb (Ascii.eqb a " ") && no_space s end%bool.
Lemma digits_no_space d : no_space (NilEmpty.string_of_uint d) = true.
Proof. induction d; cbn; auto. Qed.
Lemma spaces_inj : forall n m a b, no_space a = true -> no_space b = true -> a <> ""%string -> b <> ""%string ->
  (spaces n ++ a)%string = (spaces m ++ b)%string -> a = b.
Proof.
  induction n as [|n IH]; intros [|m] a b A B NA NB E; cbn [spaces append] in E.
  - exact E.
  - subst a. cbn in A. discriminate.
  - subst b. cbn in B. discriminate.
  - injection E as E. now apply (IH m).
Qed.
Lemma decimal_nonempty n : decimal n <> ""%string.
Proof.
  unfold decimal. intros E. destruct n as [|p]; [discriminate|]. cbn in E.
  assert (X : Pos.to_uint p = Decimal.Nil). { destruct (Pos.to_uint p); cbn in E; discriminate || reflexivity. }
  now apply (DecimalPos.Unsigned.to_uint_nonnil p).
Qed.
Lemma decimal_inj n m : decimal n = decimal m -> n = m.
Proof.
  unfold decimal. intros E. apply (f_equal NilEmpty.uint_of_string) in E. rewrite !NilEmpty.usu in E. injection E as E.
  apply (f_equal N.of_uint) in E. now rewrite !DecimalN.Unsigned.of_to in E.
Qed.
(** The text of a count tells it, and has three characters at least. *)
Theorem C103_count : forall n m, (padded (decimal n) = padded (decimal m) -> n = m) /\ (3 <= String.length (padded (decimal n)))%nat.
Proof.
  intros n m. split.
  - intros E. apply decimal_inj. unfold padded in E. eapply spaces_inj; [| | | |exact E]; try apply decimal_nonempty; apply digits_no_space.
  - unfold padded. generalize (decimal n). intros s.
    assert (forall k t, String.length (spaces k ++ t) = (k + String.length t)%nat) as ->; [|lia].
    induction k as [|k IH]; intros t; cbn [spaces append String.length]; [reflexivity|]. now rewrite IH.
Qed.
Print Assumptions C103_count.
Lemma append_prefix : forall a x y, (a ++ x)%string = (a ++ y)%string -> x = y.
Proof. induction a as [|c a IH]; cbn; intros x y E; [exact E|]. injection E as E. now apply IH. Qed.
Fixpoint no_colon (s : string) : bool := match s with EmptyString => true | String a s => negb (Ascii.eqb a ":") && no_colon s end%bool.
Lemma split_colon : forall a b x y, no_colon a = true -> no_colon b = true ->
  (a ++ ":" ++ x)%string = (b ++ ":" ++ y)%string -> a = b /\ x = y.
Proof.
  induction a as [|c a IH]; intros [|d b] x y A B E; cbn [append] in E.
  - injection E as E. auto.
  - injection E as <- E. cbn in B. discriminate.
  - injection E as -> E. cbn in A. discriminate.
  - injection E as -> E. cbn [no_colon] in A, B. apply andb_true_iff in A as [_ A], B as [_ B].
    apply (IH b) in E as [-> ->]; auto.
Qed.
Lemma padded_no_colon n : no_colon (padded (decimal n)) = true.
Proof.
  unfold padded, decimal. generalize (3 - String.length (NilEmpty.string_of_uint (N.to_uint n)))%nat.
  induction n0 as [|k IH]; cbn [spaces append no_colon]; [|exact IH]. induction (N.to_uint n); cbn; auto.
Qed.
(** The label of a map gives its numbers of staged features and of features. *)
Theorem C103_label : forall a b, s_name a = s_name b -> label a = label b ->
  length (s_staged a) = length (s_staged b) /\ length (s_local a) = length (s_local b).
Proof.
  intros a b N E. unfold label in E. rewrite N in E. do 2 apply append_prefix in E. cbn [append] in E. injection E as E.
  apply split_colon in E as [E1 E2]; try apply padded_no_colon. apply C103_count in E1, E2. lia.
Qed.
Print Assumptions C103_label.
Example label_example : label (mkShown "Points" true [] [mkItem (PointShape v0) true black]) = "    | Points:  0:  1"%string.
Proof. reflexivity. Qed.

(** A point with no match is drawn, although the image is described as that of the matched
    features. *)
Theorem C103_only_matched_refuted : exists w2c p,
  world_to_camera (camera_to_world (mkQuat 1 0 0 0) v0) w2c /\ f_matched p = false /\
  forall crossings c, draw crossings (intrinsics 500 500 320 240) 640 480 w2c c p = Draws [Disc 320 240 3 c; Disc 320 240 1 (0, 0, 255)%Z].
Proof.
  assert (U : unit_quat (mkQuat 1 0 0 0)) by (unfold unit_quat; cbn; lra).
  destruct (C46_inverse_exists _ v0 U) as (w2c & W & _). exists w2c.
  set (p := point_to_world (camera_to_world (mkQuat 1 0 0 0) v0) (mkV 0 0 1)).
  assert (B : point_to_camera w2c p = mkV 0 0 1) by (now destruct (C46_inverse _ v0 w2c (mkV 0 0 1) U W)).
  exists (mkItem (PointShape p) false black). split; [exact W|]. split; [reflexivity|]. intros crossings c.
  destruct (C103_point crossings 500 500 320 240 640 480 w2c c p false black) as [A _]; [unfold image_size; lia..|].
  destruct A as (u & v & x & y & [EU EV] & X & Y & ->).
  - unfold seen_in. rewrite B. cbn [vz]. split; [lra|]. exists 320, 240. unfold seen_at, in_image. cbn. split; [split; field|lra].
  - rewrite B in EU, EV. cbn [vx vy vz] in EU, EV.
    assert (T : forall r n, r = IZR n -> forall z, pixel_of r z -> (0 <= n)%Z -> z = n).
    { intros r n -> z [_ P] N. apply IZR_le in N. destruct P as [[_ P]|[P _]]; [|lra].
      assert (n < z + 1 /\ z < n + 1)%Z; [|lia]. split; apply lt_IZR; rewrite plus_IZR; lra. }
    rewrite (T u 320%Z) with (z := x); [|rewrite EU; field|exact X|lia]. rewrite (T v 240%Z) with (z := y); [|rewrite EV; field|exact Y|lia]. reflexivity.
Qed.
Print Assumptions C103_only_matched_refuted.
