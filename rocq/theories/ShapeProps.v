(** Proofs about the fit of polygons, their common areas and their holes. *)
From Verif Require Export ShapeSpec.
From Verif Require Import GeometrySpec PolygonProps.
From Verif Require GeometryProps.
From Verif Require ConcaveHullModel ConcaveHullSpec ConcaveHullProps.
From Coq Require Import Lra Lia List Permutation.
Import ListNotations.
From Verif Require Import Vec3.
Local Open Scope R_scope.

Lemma area_of_shape s : (3 <= length (outer_ring s))%nat -> area_of s = shape_area s.
Proof. intros L. unfold area_of. replace (length (outer_ring s) <? 3)%nat with false; [easy|]. symmetry. apply Nat.ltb_ge. lia. Qed.
Lemma area_of_flat r : area_of (mkShape r []) = area r.
Proof. unfold area_of, area, shape_area, sum. cbn [outer_ring inner_rings map fold_right]. destruct (length r <? 3)%nat; [easy|]. ring. Qed.
Lemma shape_area_holes s : shape_area s = ring_area (outer_ring s) - holes_area s.
Proof. unfold shape_area, holes_area. ring. Qed.
Lemma make_h_ok b x y c : frame x y -> make_h b x y c = Value (mkH (mkShape (correct b) []) c x y (area (correct b))).
Proof. intros F. unfold make_h. rewrite make_polygon_ok by exact F. reflexivity. Qed.

(** * Fit (C88) *)

Section Fit.
Variable simplified : shape -> R -> shape.
Variable valid : shape -> bool.
Variable concave_hull : list point2 -> list point2.
Variable corrected : shape -> list shape.
Variable convex_hull : list point2 -> list point2.

Lemma fitted_chosen q : chosen valid (concave_hull q) (convex_hull q) (corrected (mkShape (concave_hull q) []))
  (fitted_shape valid concave_hull corrected convex_hull q).
Proof.
  unfold fitted_shape. destruct (valid _) eqn:V; [now constructor|].
  destruct (corrected _) as [|s l] eqn:C; [now constructor|]. now apply chosen_corrected with l.
Qed.

(** A fit never fails for a unit normal and 3 points or more. The polygon is in the plane
    given; its boundary is the one chosen, or its simplification when this one is valid and
    keeps more than three quarters of the area; its area is the one of its boundary. *)
Theorem C88_fit :
  forall points n c, is_unit n -> (3 <= length points)%nat ->
  exists p projected s, fit simplified valid concave_hull corrected convex_hull points n c = Value p /\
  frame (h_x p) (h_y p) /\ cross (h_x p) (h_y p) = n /\ h_center p = c /\
  each (fun v => project_point v c (h_x p) (h_y p)) (rev points) = Value projected /\
  chosen valid (concave_hull projected) (convex_hull projected) (corrected (mkShape (concave_hull projected) [])) s /\
  (h_shape p = s /\ h_area p = area_of s \/
   h_shape p = simplified s (Rmax (area_of s / 10 ^ 5) 10) /\ valid (h_shape p) = true /\
   h_area p = shape_area (h_shape p) /\ area_of s * (3 / 4) < h_area p).
Proof.
  intros points n c U L. destruct (C48_axes n U) as [x [y [A [F N]]]].
  unfold fit, check. rewrite (unit_norm_ok n U). replace (length points <? 3)%nat with false by (symmetry; apply Nat.ltb_ge; lia).
  cbn [negb]. rewrite A. cbn [bind fst snd].
  rewrite (each_value _ (ppt c x y)) by (intros v; now apply project_point_ok). cbn [bind].
  eexists. exists (map (ppt c x y) (rev points)), (fitted_shape valid concave_hull corrected convex_hull (map (ppt c x y) (rev points))).
  split; [reflexivity|]. set (s := fitted_shape _ _ _ _ _).
  assert (H : forall p, p = h_simplify simplified valid (mkH s c x y (area_of s)) ->
    h_x p = x /\ h_y p = y /\ h_center p = c /\
    (h_shape p = s /\ h_area p = area_of s \/
     h_shape p = simplified s (Rmax (area_of s / 10 ^ 5) 10) /\ valid (h_shape p) = true /\
     h_area p = shape_area (h_shape p) /\ area_of s * (3 / 4) < h_area p)).
  { intros p ->. unfold h_simplify. cbn [h_shape h_center h_x h_y]. destruct (valid _) eqn:V; [destruct (Rlt_dec _ _)|];
      cbn [h_shape h_center h_x h_y h_area]; repeat split; auto. }
  destruct (H _ eq_refl) as [HX [HY [HC HS]]]. rewrite HX, HY, HC.
  split; [easy|]. split; [easy|]. split; [easy|]. split.
  - apply each_value. intros v. now apply project_point_ok.
  - split; [apply fitted_chosen|exact HS].
Qed.
(** Less than 3 points, or a normal that is not of norm 1, are refused. *)
Theorem C88_refused :
  forall points n c, (length points < 3)%nat \/ unit_norm n = false ->
  fit simplified valid concave_hull corrected convex_hull points n c = Throws.
Proof.
  intros points n c H. unfold fit, check. destruct (unit_norm n); [|easy]. destruct H as [H|H]; [|easy].
  replace (length points <? 3)%nat with true by (symmetry; now apply Nat.ltb_lt). easy.
Qed.
(** When nothing has to be repaired, the vertices of the polygon are the given points, brought
    on the plane. *)
Theorem C88_vertices :
  picks concave_hull -> picks convex_hull -> keeps_vertices simplified ->
  forall points n c p projected, is_unit n -> (3 <= length points)%nat ->
  fit simplified valid concave_hull corrected convex_hull points n c = Value p ->
  each (fun v => project_point v c (h_x p) (h_y p)) (rev points) = Value projected ->
  valid (mkShape (concave_hull projected) []) = true \/ corrected (mkShape (concave_hull projected) []) = [] ->
  forall q, In q (outer_ring (h_shape p)) ->
  exists v, In v points /\ unproject_point q c (h_x p) (h_y p) = Value (foot n c v).
Proof.
  intros PC PV KS points n c p projected U L H E OK q I.
  destruct (C88_fit points n c U L) as [p' [pr [s [H' [F [N [C [E' [CH S]]]]]]]]].
  rewrite H in H'. injection H' as <-. rewrite E in E'. injection E' as <-.
  assert (IS : In q (outer_ring s)) by (destruct S as [[SH _]|[SH _]]; rewrite SH in I; [exact I|now apply KS in I]).
  assert (IP : In q projected).
  { inversion CH as [V EQ|s' l V EQ|V EQ]; subst.
    - cbn in IS. now apply PC.
    - destruct OK; congruence.
    - cbn in IS. now apply PV. }
  rewrite (each_value _ (ppt c (h_x p) (h_y p))) in E by (intros v; now apply project_point_ok).
  assert (EP : map (ppt c (h_x p) (h_y p)) (rev points) = projected) by congruence.
  rewrite <- EP in IP. apply in_map_iff in IP. destruct IP as [v [Q V]]. apply in_rev in V. exists v. split; [exact V|].
  destruct (C48_space_plane_space (h_x p) (h_y p) c v F) as [q' [PQ [UQ _]]].
  rewrite project_point_ok in PQ by exact F. injection PQ as <-. change (dot (h_x p) (vsub v c), dot (h_y p) (vsub v c)) with (ppt c (h_x p) (h_y p) v) in UQ. rewrite Q in UQ. now rewrite UQ, N.
Qed.
End Fit.

(** The concave hull of the code picks points of its input. *)
Definition hull_of nearest sort (l : list point2) : list point2 :=
  match snd (ConcaveHullModel.boundary nearest sort l) with
  | ConcaveHullModel.Boundary b => b
  | ConcaveHullModel.Misbehaves => []
  end.
Theorem C88_concave_hull :
  forall nearest sort, (forall i, ConcaveHullSpec.takes_from_the_index (nearest i)) -> (forall i, ConcaveHullSpec.permutes (sort i)) ->
  picks (hull_of nearest sort).
Proof.
  intros nearest sort T P l q. unfold hull_of, point2 in *. destruct (Nat.lt_ge_cases (length l) 3) as [L|L].
  { rewrite (proj2 (ConcaveHullProps.C51_few_points nearest sort) l L). easy. }
  destruct (Nat.eq_dec (length l) 3) as [E|E].
  { destruct l as [|a [|b [|c [|d l]]]]; cbn in E; try lia. now rewrite (proj1 (ConcaveHullProps.C51_few_points nearest sort) a b c). }
  unfold ConcaveHullModel.boundary. replace (length l <? 3)%nat with false by (symmetry; apply Nat.ltb_ge; lia).
  destruct (ConcaveHullModel.compute_concave_hull nearest sort (ConcaveHullModel.identify 0 l) 8) as [tried o] eqn:H.
  destruct o as [hull| | |]; try easy. cbn [snd]. intros I. apply in_map_iff in I. destruct I as [h [<- I]].
  destruct (ConcaveHullProps.C51_vertices nearest sort l tried hull T P ltac:(lia) H) as [_ [_ [first [N0 [_ V]]]]].
  apply In_nth_error in I. destruct I as [i I]. destruct (V i h I) as [Q|[_ [_ [-> ->]]]].
  - eapply nth_error_In. exact Q.
  - destruct (V 0%nat first N0) as [Q|[_ [Z _]]]; [|lia]. eapply nth_error_In. exact Q.
Qed.

(** * The example: a bar, and an arch whose feet are on the bar *)

Definition bar : list point2 := [(0, 0); (0, 1); (3, 1); (3, 0); (0, 0)].
Definition arch : list point2 := [(0, 0); (0, 3); (3, 3); (3, 0); (2, 0); (2, 2); (1, 2); (1, 0); (0, 0)].
Definition left_foot : list point2 := [(0, 0); (0, 1); (1, 1); (1, 0); (0, 0)].
Definition right_foot : list point2 := [(2, 0); (2, 1); (3, 1); (3, 0); (2, 0)].
Definition big_square : list point2 := [(0, 0); (0, 3); (3, 3); (3, 0); (0, 0)].
Definition window : list point2 := [(1, 1); (2, 1); (2, 2); (1, 2); (1, 1)].
Lemma ring_areas : ring_area bar = 3 /\ ring_area arch = 7 /\ ring_area left_foot = 1 /\ ring_area right_foot = 1 /\
  ring_area big_square = 9 /\ ring_area window = -1.
Proof. unfold ring_area, bar, arch, left_foot, right_foot, big_square, window. cbn. repeat split; field. Qed.
Definition house (r : list point2) (c : vec) (a : R) : hpolygon := mkH (mkShape r []) c (mkV 1 0 0) (mkV 0 1 0) a.
Definition common : list shape := [mkShape left_foot []; mkShape right_foot []].
Definition joined : list shape := [mkShape big_square [window]].
Lemma shape_areas : shape_area (mkShape bar []) = 3 /\ shape_area (mkShape arch []) = 7 /\ shape_area (mkShape left_foot []) = 1 /\
  shape_area (mkShape right_foot []) = 1 /\ shape_area (mkShape big_square [window]) = 8.
Proof.
  destruct ring_areas as [A [B [C [D [E F]]]]]. unfold shape_area, sum. cbn [outer_ring inner_rings map fold_right].
  rewrite A, B, C, D, E, F. repeat split; ring.
Qed.
Lemma example_overlaps : overlaps (mkShape bar []) (mkShape arch []) common joined.
Proof.
  destruct shape_areas as [A [B [C [D E]]]].
  assert (T : total common = 2) by (unfold total, common, sum; cbn [map fold_right]; rewrite C, D; ring).
  assert (T' : total joined = 8) by (unfold total, joined, sum; cbn [map fold_right]; rewrite E; ring).
  split.
  - intros s H. unfold common, joined in H. cbn [In] in H. decompose [or] H; subst; try easy; rewrite ?C, ?D, ?E; lra.
  - rewrite T, A. lra.
  - rewrite T, B. lra.
  - rewrite T, T', A, B. ring.
  - intros s H. exists (mkShape big_square [window]). split; [now left|]. rewrite E. unfold common in H. cbn [In] in H.
    decompose [or] H; subst; try easy; rewrite ?C, ?D; lra.
  - intros s [<-|[]]. cbn. lia.
Qed.
Lemma house_sound r c a : proper_ring r -> a = ring_area r -> hsound (house r c a).
Proof.
  intros P ->. split; [unfold frame, dot; cbn; repeat split; ring|]. split; [exact P|]. split; [easy|].
  unfold shape_area, sum. cbn. ring.
Qed.
Lemma bar_sound c : hsound (house bar c 3).
Proof. destruct ring_areas as [A _]. apply house_sound; [split; [now intros d|lra]|easy]. Qed.
Lemma arch_sound c : hsound (house arch c 7).
Proof. destruct ring_areas as [_ [A _]]. apply house_sound; [split; [now intros d|lra]|easy]. Qed.
Lemma h_project_self p : frame (h_x p) (h_y p) -> h_project p (h_x p) (h_y p) (h_center p) = Value p.
Proof.
  intros F. unfold h_project, check, same_frame. rewrite (unit_norm_ok _ (proj1 F)), orthogonal_ok by apply F.
  cbn [flat center x_axis y_axis]. now rewrite !approx_refl.
Qed.

(** * Holes (C90) *)

(** Without holes, the operations are the ones of the polygons without holes. *)
Theorem C90_no_hole :
  forall p x y c m, inner_rings (h_shape p) = [] ->
  h_project p x y c = bind (project (flat p) x y c) (fun q => Value (without_hole q)) /\
  h_to_world_space m p = bind (to_world_space m (flat p)) (fun q => Value (without_hole q)) /\
  h_to_camera_space m p = bind (to_camera_space m (flat p)) (fun q => Value (without_hole q)).
Proof.
  intros [[r l] c0 x0 y0 a] x y c m H. cbn in H. subst l. split; [|split].
  - unfold h_project, project, check, make_h, flat. cbn [h_shape outer_ring h_center h_x h_y h_area outline center x_axis y_axis].
    destruct (unit_norm x); [|easy]. destruct (nearly_orthogonal x y); [|easy]. destruct (same_frame _ x y c); [reflexivity|].
    destruct (each _ r); reflexivity.
  - unfold h_to_world_space, to_world_space, h_move, move, check, make_h, flat. cbn [h_shape outer_ring h_center h_x h_y h_area center x_axis y_axis].
    destruct (unit_norm _); [|easy]. destruct (unit_norm _); [|easy]. destruct (nearly_orthogonal _ _); [|easy].
    destruct (transform_boundary _ _ _ _ _); reflexivity.
  - unfold h_to_camera_space, to_camera_space, h_move, move, check, make_h, flat. cbn [h_shape outer_ring h_center h_x h_y h_area center x_axis y_axis].
    destruct (unit_norm _); [|easy]. destruct (unit_norm _); [|easy]. destruct (nearly_orthogonal _ _); [|easy].
    destruct (transform_boundary _ _ _ _ _); reflexivity.
Qed.
Lemma flat_frame p : hsound p -> frame (x_axis (flat p)) (y_axis (flat p)).
Proof. intros [F _]. exact F. Qed.
(** the polygon without its holes *)
Definition filled (p : hpolygon) : polygon := mkPolygon (outer_ring (h_shape p)) (h_center p) (h_x p) (h_y p) (ring_area (outer_ring (h_shape p))).
Lemma filled_sound p : hsound p -> sound (filled p).
Proof. intros [F [P _]]. split; [exact F|]. split; [exact P|]. reflexivity. Qed.
Lemma h_project_filled p x y c : frame x y -> same_frame (flat p) x y c = false ->
  h_project p x y c = bind (project (filled p) x y c) (fun q => Value (without_hole q)).
Proof.
  intros F S. unfold h_project, project. change (same_frame (filled p) x y c) with (same_frame (flat p) x y c). rewrite S.
  unfold check, make_h. rewrite (unit_norm_ok x) by apply F. rewrite orthogonal_ok by apply F. cbn [filled outline center x_axis y_axis].
  destruct (each _ _); reflexivity.
Qed.
(** Projected on another plane, a polygon loses its holes: its new area is the projection of
    the area with the holes filled. *)
Theorem C90_project :
  forall p x y c, hsound p -> frame x y ->
  exists p', h_project p x y c = Value p' /\ hsound p' /\
  ((same_frame (flat p) x y c = true /\ p' = p) \/
   (inner_rings (h_shape p') = [] /\ h_x p' = x /\ h_y p' = y /\ h_center p' = c /\
    h_area p' = Rabs (dot (cross (h_x p) (h_y p)) (cross x y)) * (h_area p + holes_area (h_shape p)))).
Proof.
  intros p x y c S F. destruct (same_frame (flat p) x y c) eqn:E.
  - exists p. unfold h_project, check. rewrite (unit_norm_ok x) by apply F. rewrite orthogonal_ok by apply F. rewrite E. auto.
  - rewrite (h_project_filled p x y c F E).
    destruct (C48_project (filled p) x y c (filled_sound p S) F) as [q [-> [SQ [[E' _]|[X [Y [C [A _]]]]]]]].
    { change (same_frame (filled p) x y c) with (same_frame (flat p) x y c) in E'. congruence. }
    cbn [bind]. eexists. split; [reflexivity|]. destruct SQ as [FQ [PQ AQ]]. split.
    + split; [exact FQ|]. split; [exact PQ|]. split; [easy|]. cbn [without_hole h_area h_shape]. rewrite AQ. unfold shape_area, sum.
      cbn [outer_ring inner_rings map fold_right]. ring.
    + right. cbn [without_hole h_shape inner_rings h_x h_y h_center h_area]. repeat split; auto. rewrite A.
      cbn [filled stored_area]. f_equal. destruct S as [_ [_ [_ ->]]]. rewrite shape_area_holes. ring.
Qed.
(** Moved from the camera to the world, a polygon keeps its outer boundary and loses its holes:
    its area grows by the area of the holes. *)
Theorem C90_moves :
  forall q t w2c p, unit_quat q -> world_to_camera (camera_to_world q t) w2c -> hsound p ->
  exists p', h_to_world_space (camera_to_world q t) p = Value p' /\ hsound p' /\
  outer_ring (h_shape p') = outer_ring (h_shape p) /\ inner_rings (h_shape p') = [] /\
  h_area p' = h_area p + holes_area (h_shape p) /\ (h_area p' = h_area p <-> holes_area (h_shape p) = 0) /\
  h_to_camera_space w2c p' = Value (mkH (mkShape (outer_ring (h_shape p)) []) (h_center p) (h_x p) (h_y p) (h_area p + holes_area (h_shape p))).
Proof.
  intros q t w2c p U I S. destruct (C48_moves q t w2c (filled p) U I (filled_sound p S)) as [p' [pts [W [S' [O [A [_ [_ B]]]]]]]].
  assert (HA : h_area p + holes_area (h_shape p) = ring_area (outer_ring (h_shape p))).
  { destruct S as [_ [_ [_ ->]]]. rewrite shape_area_holes. ring. }
  assert (E : h_to_world_space (camera_to_world q t) p = bind (to_world_space (camera_to_world q t) (filled p)) (fun q => Value (without_hole q))).
  { unfold h_to_world_space, to_world_space, h_move, move, check, make_h. cbn [filled center x_axis y_axis].
    destruct (unit_norm _); [|easy]. destruct (unit_norm _); [|easy]. destruct (nearly_orthogonal _ _); [|easy].
    change (transform_boundary (flat p)) with (transform_boundary (filled p)). destruct (transform_boundary _ _ _ _ _); reflexivity. }
  rewrite E, W. cbn [bind]. eexists. split; [reflexivity|]. cbn [without_hole h_shape outer_ring inner_rings h_area].
  destruct S' as [F' [P' A']]. split.
  { split; [exact F'|]. split; [exact P'|]. split; [easy|]. cbn [h_area h_shape without_hole]. rewrite A'. unfold shape_area, sum.
    cbn [outer_ring inner_rings map fold_right]. ring. }
  split; [exact O|]. split; [easy|]. rewrite HA, A. cbn [filled stored_area]. split; [easy|]. split; [split; lra|].
  destruct (C90_no_hole (without_hole p') v0 v0 v0 w2c eq_refl) as [_ [_ C]]. rewrite C.
  replace (flat (without_hole p')) with p' by (destruct p'; reflexivity). rewrite B. reflexivity.
Qed.

(** * Common areas (C89) *)

Lemma h_project_twice q x y c q' : frame x y -> h_project q x y c = Value q' -> h_project q' x y c = Value q'.
Proof.
  intros F H. pose proof H as H'. unfold h_project, check in H. rewrite (unit_norm_ok x) in H by apply F. rewrite orthogonal_ok in H by apply F.
  destruct (same_frame (flat q) x y c) eqn:E; [now injection H as <-|].
  apply bind_value in H. destruct H as [b [_ H]]. rewrite make_h_ok in H by exact F. injection H as <-.
  apply (h_project_self (mkH (mkShape (correct b) []) c x y (area (correct b)))). exact F.
Qed.
Lemma total_positive l : (forall s, In s l -> 0 < shape_area s) -> 0 <= total l /\ (forall s, In s l -> shape_area s <= total l).
Proof.
  unfold total, sum. induction l as [|a l IH]; intros H; cbn; [split; [lra|easy]|].
  destruct IH as [A B]; [intros s I; apply H; now right|]. pose proof (H a (or_introl eq_refl)). split; [lra|].
  intros s [<-|I]; [lra|]. specialize (B s I). lra.
Qed.
Lemma biggest_shape_ok l : forall best, let b := biggest_shape best l in
  fst best <= fst b /\ (b = best \/ (In (snd b) l /\ fst b = shape_area (snd b))) /\ forall s, In s l -> shape_area s <= fst b.
Proof.
  induction l as [|r l IH]; intros best; cbn; [split; [lra|split; [now left|easy]]|].
  destruct (Rlt_dec (fst best) (shape_area r)) as [L|L].
  - destruct (IH (shape_area r, r)) as [A [B C]]. cbn [fst snd] in *. split; [lra|]. split.
    + destruct B as [B|[B1 B2]]; [right; rewrite B; cbn; auto|right; auto].
    + intros s [<-|S]; [exact A|now apply C].
  - destruct (IH best) as [A [B C]]. split; [easy|]. split; [destruct B as [B|[B1 B2]]; auto|].
    intros s [<-|S]; [lra|now apply C].
Qed.
Lemma select_shape_ok l : (forall s, In s l -> 0 < shape_area s) ->
  exists s, select_shape l = Value s /\
  (l = [] /\ s = no_shape \/ In s l /\ forall t, In t l -> shape_area t <= shape_area s).
Proof.
  intros P. destruct l as [|a [|b l]].
  - exists no_shape. auto.
  - exists a. split; [easy|]. right. split; [now left|]. intros t [<-|[]]. lra.
  - destruct (biggest_shape_ok (a :: b :: l) (0, a)) as [A [B C]]. unfold select_shape.
    set (g := biggest_shape (0, a) (a :: b :: l)) in *. clearbody g.
    assert (0 < fst g) by (pose proof (P a (or_introl eq_refl)); pose proof (C a (or_introl eq_refl)); lra).
    destruct (Rle_dec (fst g) 0); [lra|]. exists (snd g). split; [easy|]. right.
    destruct B as [->|[B1 B2]]; [cbn in *; lra|]. split; [exact B1|]. intros t I. rewrite <- B2. now apply C.
Qed.

Section Overlap.
Variable simplified : shape -> R -> shape.
Variable valid : shape -> bool.
Variable union : shape -> shape -> list shape.
Variable intersection : shape -> shape -> option (list shape).

(** The common area of two polygons is never more than the area of one of them, once the
    second one is projected on the plane of the first one; the area of the union is the sum of
    the areas without it. *)
Theorem C89_areas :
  forall p q, hsound p -> hsound q ->
  exists q', h_project q (h_x p) (h_y p) (h_center p) = Value q' /\ hsound q' /\
  (q' = q \/ h_area q' = Rabs (dot (cross (h_x q) (h_y q)) (cross (h_x p) (h_y p))) * (h_area q + holes_area (h_shape q))) /\
  forall i, intersection (h_shape p) (h_shape q') = Some i -> overlaps (h_shape p) (h_shape q') i (union (h_shape p) (h_shape q')) ->
  exists common all, inter_area intersection p q = Value common /\ union_area union p q = Value all /\
  0 <= common /\ common <= h_area p /\ common <= h_area q' /\ all = h_area p + h_area q' - common /\
  h_area p <= all /\ h_area q' <= all.
Proof.
  intros p q SP SQ. destruct (C90_project q (h_x p) (h_y p) (h_center p) SQ (proj1 SP)) as [q' [H [S' D]]].
  exists q'. split; [exact H|]. split; [exact S'|]. split; [destruct D as [[_ D]|[_ [_ [_ [_ D]]]]]; auto|].
  intros i I O. unfold inter_area, union_area. rewrite H. cbn [bind]. rewrite I. exists (total i), (total (union (h_shape p) (h_shape q'))).
  split; [easy|]. split; [easy|]. destruct O as [Po I1 I2 CO _ _].
  destruct (total_positive i) as [T _]; [auto|]. destruct SP as [_ [_ [_ ->]]], S' as [_ [_ [_ ->]]]. lra.
Qed.
(** The common part and the joined part, asked for any other polygon, are the largest ones once it is
    in the plane of the first. *)
Theorem C89_parts :
  forall p q q' i, hsound p -> hsound q -> h_project q (h_x p) (h_y p) (h_center p) = Value q' ->
  intersection (h_shape p) (h_shape q') = Some i -> overlaps (h_shape p) (h_shape q') i (union (h_shape p) (h_shape q')) ->
  exists s t, h_inter_one intersection p q = Value s /\ h_union_one union p q = Value t /\
    (i = [] /\ s = no_shape \/ In s i /\ forall s', In s' i -> shape_area s' <= shape_area s) /\
    (union (h_shape p) (h_shape q') = [] /\ t = no_shape \/
     In t (union (h_shape p) (h_shape q')) /\ forall t', In t' (union (h_shape p) (h_shape q')) -> shape_area t' <= shape_area t).
Proof.
  intros p q q' i _ _ H I [Po _ _ _ _ _].
  destruct (select_shape_ok i) as [s [SS S]]; [auto|].
  destruct (select_shape_ok (union (h_shape p) (h_shape q'))) as [t [ST T]]; [auto|].
  exists s, t. unfold h_inter_one, h_union_one. rewrite H. cbn [bind]. rewrite I. auto.
Qed.
(** When the intersection cannot be computed, the common area is null. *)
Theorem C89_failure :
  forall p q q', h_project q (h_x p) (h_y p) (h_center p) = Value q' -> intersection (h_shape p) (h_shape q') = None ->
  inter_area intersection p q = Value 0.
Proof. intros p q q' H I. unfold inter_area. rewrite H. cbn [bind]. now rewrite I. Qed.
(** The intersection over union is between 0 and 1. It is the ratio of the biggest part of the
    intersection and of the biggest part of the union: the ratio of the areas when there is one
    part of each. *)
Theorem C89_ratio :
  forall p q q' i, hsound p -> hsound q -> h_project q (h_x p) (h_y p) (h_center p) = Value q' ->
  intersection (h_shape p) (h_shape q') = Some i -> overlaps (h_shape p) (h_shape q') i (union (h_shape p) (h_shape q')) ->
  exists v, inter_over_union union intersection p q = Value v /\ 0 <= v <= 1 /\ (i = [] -> v = 0) /\
  (i <> [] -> exists s t, In s i /\ (forall s', In s' i -> shape_area s' <= shape_area s) /\
     In t (union (h_shape p) (h_shape q')) /\ (forall t', In t' (union (h_shape p) (h_shape q')) -> shape_area t' <= shape_area t) /\
     v = shape_area s / shape_area t) /\
  (length i = 1%nat -> length (union (h_shape p) (h_shape q')) = 1%nat -> v = total i / total (union (h_shape p) (h_shape q'))).
Proof.
  intros p q q' i SP SQ H I O. set (u := union (h_shape p) (h_shape q')) in *.
  pose proof (h_project_twice q _ _ _ q' (proj1 SP) H) as H2.
  destruct O as [Po _ _ _ Ne Dr].
  destruct (select_shape_ok u) as [t [ST T]]; [auto|]. destruct (select_shape_ok i) as [s [SS S]]; [auto|].
  unfold inter_over_union, h_union_one, h_inter_one. rewrite H. cbn [bind]. rewrite H2. cbn [bind]. fold u. rewrite ST. cbn [bind]. rewrite I, SS. cbn [bind].
  destruct T as [[U ->]|[T1 T2]].
  { assert (i = []) as -> by (destruct i as [|a i]; [easy|]; destruct (Ne a (or_introl eq_refl)) as [t [F _]]; now rewrite U in F).
    cbn. exists 0. repeat split; auto; try lra; easy. }
  replace (length (outer_ring t) <? 3)%nat with false by (symmetry; apply Nat.ltb_ge; auto).
  assert (PT : 0 < shape_area t) by auto. destruct (Rle_dec (shape_area t) 0); [lra|].
  destruct S as [[-> ->]|[S1 S2]].
  { destruct (Rle_dec (shape_area no_shape) 0) as [|N]; [|exfalso; apply N; unfold shape_area, ring_area; cbn; lra].
    exists 0. repeat split; auto; try lra; easy. }
  assert (PS : 0 < shape_area s) by auto. destruct (Rle_dec (shape_area s) 0); [lra|].
  exists (shape_area s / shape_area t). split; [easy|].
  assert (LE : shape_area s <= shape_area t) by (destruct (Ne s S1) as [t' [F G]]; specialize (T2 t' F); lra).
  split; [|split; [|split]].
  - split; [apply Rlt_le, Rdiv_lt_0_compat; lra|]. apply Rmult_le_reg_r with (shape_area t); [lra|]. unfold Rdiv. rewrite Rmult_assoc, Rinv_l by lra. lra.
  - intros ->. easy.
  - intros _. exists s, t. auto.
  - intros LI LU. destruct i as [|a [|b i]]; try easy. destruct u as [|c [|d u]]; try easy.
    destruct S1 as [->|[]], T1 as [->|[]]. unfold total, sum. cbn. now rewrite !Rplus_0_r.
Qed.

(** A merge keeps the plane, and more than three quarters of the area of the biggest part of
    the union (C90). *)
Theorem C90_merge :
  forall p q q' i, hsound p -> hsound q -> h_project q (h_x p) (h_y p) (h_center p) = Value q' ->
  overlaps (h_shape p) (h_shape q') i (union (h_shape p) (h_shape q')) ->
  exists p', h_merge_union simplified valid union p q = Value p' /\
  h_x p' = h_x p /\ h_y p' = h_y p /\ h_center p' = h_center p /\
  (union (h_shape p) (h_shape q') = [] -> p' = p) /\
  (union (h_shape p) (h_shape q') <> [] -> exists s, In s (union (h_shape p) (h_shape q')) /\
     (forall s', In s' (union (h_shape p) (h_shape q')) -> shape_area s' <= shape_area s) /\
     h_area p' = shape_area (h_shape p') /\ shape_area s * (3 / 4) < h_area p' /\
     (h_shape p' = s \/ h_shape p' = simplified s (Rmax (shape_area s / 10 ^ 5) 10) /\ valid (h_shape p') = true)).
Proof.
  intros p q q' i SP SQ H O. set (u := union (h_shape p) (h_shape q')) in *.
  pose proof (h_project_twice q _ _ _ q' (proj1 SP) H) as H2. destruct O as [Po _ _ _ _ Dr].
  destruct (select_shape_ok u) as [s [SS S]]; [auto|].
  unfold h_merge_union, h_union_one. rewrite H. cbn [bind]. rewrite H2. cbn [bind]. fold u. rewrite SS. cbn [bind].
  destruct S as [[U ->]|[S1 S2]].
  { cbn. exists p. repeat split; auto. intros N. now rewrite U in N. }
  assert (L : (3 <= length (outer_ring s))%nat) by auto. assert (PS : 0 < shape_area s) by auto.
  assert (NU : u <> []) by (intros Z; now rewrite Z in S1).
  destruct (outer_ring s) as [|a r] eqn:R; [cbn in L; lia|]. rewrite <- R in L. eexists. split; [reflexivity|].
  unfold h_simplify. cbn [h_shape h_center h_x h_y]. rewrite area_of_shape by exact L.
  destruct (valid _) eqn:V; [destruct (Rlt_dec _ _)|]; cbn [h_shape h_center h_x h_y h_area]; repeat split; try easy; intros _; exists s; repeat split; auto; lra.
Qed.
End Overlap.

(** The ratio is not the one of the areas when the intersection has several parts. *)
Theorem C89_ratio_refuted :
  exists union intersection p q i v common all, hsound p /\ hsound q /\
  intersection (h_shape p) (h_shape q) = Some i /\ overlaps (h_shape p) (h_shape q) i (union (h_shape p) (h_shape q)) /\
  inter_over_union union intersection p q = Value v /\ inter_area intersection p q = Value common /\ union_area union p q = Value all /\
  v <> common / all.
Proof.
  exists (fun _ _ => joined), (fun _ _ => Some common), (house bar v0 3), (house arch v0 7), common, (1 / 8), 2, 8.
  split; [apply bar_sound|]. split; [apply arch_sound|]. split; [easy|]. split; [apply example_overlaps|].
  destruct shape_areas as [A [B [C [D E]]]].
  assert (P : h_project (house arch v0 7) (h_x (house bar v0 3)) (h_y (house bar v0 3)) (h_center (house bar v0 3)) = Value (house arch v0 7)).
  { apply (h_project_self (house arch v0 7)). apply arch_sound. }
  split; [|split; [|split]].
  - unfold inter_over_union, h_union_one, h_inter_one. rewrite P. cbn [bind]. rewrite P. cbn [bind].
    unfold joined, common. cbn [select_shape bind outer_ring biggest_shape fst snd]. change (length big_square <? 3)%nat with false. rewrite E, C, D.
    destruct (Rle_dec 8 0); [lra|]. destruct (Rlt_dec 0 1); [|lra]. cbn [fst snd]. destruct (Rlt_dec 1 1); [lra|]. cbn [fst snd].
    destruct (Rle_dec 1 0); [lra|]. cbn [bind]. rewrite C. destruct (Rle_dec 1 0); [lra|]. reflexivity.
  - unfold inter_area. rewrite P. cbn [bind]. unfold common, sum. cbn [map fold_right]. rewrite C, D. f_equal. ring.
  - unfold union_area. rewrite P. cbn [bind]. unfold joined, sum. cbn [map fold_right]. rewrite E. f_equal. ring.
  - lra.
Qed.
(** Two polygons without hole can be merged into one with a hole; moved to the world, it has
    lost the hole, and its area is not the same any more. *)
Theorem C90_moves_keep_area_refuted :
  exists simplified valid union p q i p' p'' c2w, hsound p /\ hsound q /\ inner_rings (h_shape p) = [] /\ inner_rings (h_shape q) = [] /\
  overlaps (h_shape p) (h_shape q) i (union (h_shape p) (h_shape q)) /\
  h_merge_union simplified valid union p q = Value p' /\ hsound p' /\ h_area p' = 8 /\
  (exists rotation position, unit_quat rotation /\ c2w = camera_to_world rotation position) /\
  h_to_world_space c2w p' = Value p'' /\ h_area p'' = 9.
Proof.
  destruct shape_areas as [A [B [C [D E]]]]. destruct ring_areas as [_ [_ [_ [_ [RB RW]]]]].
  set (p' := mkH (mkShape big_square [window]) v0 (mkV 1 0 0) (mkV 0 1 0) 8).
  assert (S' : hsound p').
  { split; [unfold frame, dot; cbn; repeat split; ring|]. split; [split; [now intros d|cbn [p' h_shape outer_ring]; lra]|]. split.
    - intros r [<-|[]]. split; [now intros d|lra].
    - cbn [p' h_shape h_area]. now rewrite E. }
  assert (U : unit_quat (mkQuat 1 0 0 0)) by (unfold unit_quat; cbn; ring).
  destruct (GeometryProps.C46_inverse_exists (mkQuat 1 0 0 0) v0 U) as [w2c [W _]].
  destruct (C90_moves (mkQuat 1 0 0 0) v0 w2c p' U W S') as [p'' [M [_ [_ [_ [AR _]]]]]].
  exists (fun s _ => s), (fun _ => true), (fun _ _ => joined), (house bar v0 3), (house arch v0 7), common, p', p'', (camera_to_world (mkQuat 1 0 0 0) v0).
  split; [apply bar_sound|]. split; [apply arch_sound|]. split; [easy|]. split; [easy|]. split; [apply example_overlaps|].
  assert (P : h_project (house arch v0 7) (h_x (house bar v0 3)) (h_y (house bar v0 3)) (h_center (house bar v0 3)) = Value (house arch v0 7)).
  { apply (h_project_self (house arch v0 7)). apply arch_sound. }
  split.
  { unfold h_merge_union, h_union_one. rewrite P. cbn [bind]. rewrite P. cbn [bind]. unfold joined. cbn [select_shape bind outer_ring].
    unfold big_square at 1. f_equal. unfold h_simplify. cbn [h_shape h_center h_x h_y house]. rewrite area_of_shape by (cbn; lia). rewrite E.
    destruct (Rlt_dec _ _); [reflexivity|lra]. }
  split; [exact S'|]. split; [reflexivity|]. split; [eauto|]. split; [exact M|]. rewrite AR. unfold holes_area, sum, p'.
  cbn [h_area h_shape inner_rings map fold_right]. rewrite RW. ring.
Qed.
(** The fit does not keep the biggest part of a boundary that had to be repaired. *)
Theorem C88_biggest_part_refuted :
  exists simplified valid concave corrected convex points n c p, is_unit n /\ (3 <= length points)%nat /\
  fit simplified valid concave corrected convex points n c = Value p /\
  exists part projected, each (fun v => project_point v c (h_x p) (h_y p)) (rev points) = Value projected /\
    In part (corrected (mkShape (concave projected) [])) /\ h_area p < shape_area part.
Proof.
  set (n := mkV 0 0 1). set (points := [v0; v0; v0]).
  set (corr := fun s : shape => [mkShape left_foot []; mkShape big_square []]).
  assert (U : is_unit n) by (unfold is_unit, n, dot; cbn; ring).
  destruct (C88_fit (fun s _ => s) (fun _ => false) (fun l => l) corr (fun l => l) points n v0 U) as [p [pr [s [H [F [N [CE [E [CH S]]]]]]]]]; [cbn; lia|].
  exists (fun s _ => s), (fun _ => false), (fun l => l), corr, (fun l => l), points, n, v0, p.
  split; [exact U|]. split; [cbn; lia|]. split; [exact H|]. exists (mkShape big_square []), pr. split; [exact E|].
  split; [right; now left|]. destruct ring_areas as [_ [_ [_ [_ [RB _]]]]]. destruct shape_areas as [_ [_ [C _]]].
  assert (s = mkShape left_foot []) as ->.
  { inversion CH as [V|s' l V EQ|V EQ]; subst; try easy. unfold corr in EQ. now injection EQ. }
  replace (shape_area (mkShape big_square [])) with 9 by (unfold shape_area, sum; cbn [outer_ring inner_rings map fold_right]; rewrite RB; ring).
  destruct S as [[_ ->]|[_ [V _]]]; [|easy]. rewrite area_of_shape by (cbn; lia). rewrite C. lra.
Qed.
Print Assumptions C88_fit.
Print Assumptions C88_refused.
Print Assumptions C88_vertices.
Print Assumptions C88_concave_hull.
Print Assumptions C88_biggest_part_refuted.
Print Assumptions C89_areas.
Print Assumptions C89_parts.
Print Assumptions C89_failure.
Print Assumptions C89_ratio.
Print Assumptions C89_ratio_refuted.
Print Assumptions C90_no_hole.
Print Assumptions C90_project.
Print Assumptions C90_moves.
Print Assumptions C90_merge.
Print Assumptions C90_moves_keep_area_refuted.
(** The laws are met by a bar and an arch whose two feet are on it. *)
Example C89_example :
  hsound (house bar v0 3) /\ hsound (house arch v0 7) /\ overlaps (mkShape bar []) (mkShape arch []) common joined /\
  total common = 2 /\ total joined = 8.
Proof.
  split; [apply bar_sound|]. split; [apply arch_sound|]. split; [apply example_overlaps|].
  destruct shape_areas as [_ [_ [C [D E]]]]. unfold total, common, joined, sum. cbn [map fold_right]. rewrite C, D, E. split; ring.
Qed.
Definition corners : list vec := [mkV 0 0 5; mkV 0 2 5; mkV 2 2 5; mkV 2 0 5; mkV 0 0 5].
Example C88_example :
  is_unit (mkV 0 0 1) /\ (3 <= length corners)%nat /\ picks (fun l => l) /\ keeps_vertices (fun s _ => s) /\
  exists p, fit (fun s _ => s) (fun _ => true) (fun l => l) (fun _ => []) (fun l => l) corners (mkV 0 0 1) (mkV 1 1 4) = Value p /\
  length (outer_ring (h_shape p)) = 5%nat.
Proof.
  assert (U : is_unit (mkV 0 0 1)) by (unfold is_unit, dot; cbn; ring).
  split; [exact U|]. split; [cbn; lia|]. split; [now intros l q|]. split; [now intros s d q|].
  destruct (C88_fit (fun s _ => s) (fun _ => true) (fun l => l) (fun _ => []) (fun l => l) corners (mkV 0 0 1) (mkV 1 1 4) U)
    as [p [pr [s [H [F [_ [_ [E [CH S]]]]]]]]]; [cbn; lia|].
  exists p. split; [exact H|]. assert (HS : h_shape p = s) by (destruct S as [[S _]|[S _]]; exact S). rewrite HS.
  inversion CH as [V|s' l V EQ|V EQ]; subst; try easy. cbn [outer_ring].
  rewrite (each_value _ (ppt (mkV 1 1 4) (h_x p) (h_y p))) in E by (intros v; now apply project_point_ok).
  assert (EP : map (ppt (mkV 1 1 4) (h_x p) (h_y p)) (rev corners) = pr) by congruence. rewrite <- EP. now rewrite map_length, rev_length.
Qed.
