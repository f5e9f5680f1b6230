(** Properties C34, C35 and C61: plane segments. *)
From Coq Require Import Bool.
From Verif Require Import PlaneSegmentModel PlaneSegmentSpec PlaneSegmentProofs.
Local Open Scope R_scope.

(** C34: a segment obtained by any sequence of expansions has the statistics of all its
    points: count, centroid, scatter. *)
Theorem C34_expansion : forall g, grouped_sums g = accumulate (points_of g).
Proof.
  induction g as [l|a IHa b IHb]; [reflexivity|]. cbn [grouped_sums points_of]. now rewrite IHa, IHb, accumulate_app.
Qed.
Print Assumptions C34_expansion.

Theorem C34_order_and_grouping_free :
  forall g g', Permutation (points_of g) (points_of g') -> grouped_sums g = grouped_sums g'.
Proof.
  intros g g' P. rewrite !C34_expansion, !accumulate_valid. apply sums_of_perm. now apply filter_perm.
Qed.
Print Assumptions C34_order_and_grouping_free.

Theorem C34_statistics : forall g,
  let points := valid (points_of g) in
  s_n (grouped_sums g) = length points /\
  (points <> [] -> centroid (grouped_sums g) = mean points /\ scatter (grouped_sums g) = scatter_of points).
Proof.
  intros g points. rewrite C34_expansion, accumulate_valid. fold points.
  split; [reflexivity|]. intros N. split; [|now apply scatter_sums].
  unfold centroid. cbn [s_n s_x s_y s_z sums_of].
  apply vec_eq; [rewrite mean_x|rewrite mean_y|rewrite mean_z]; cbn; unfold Rdiv; ring.
Qed.
Print Assumptions C34_statistics.

(** points for the examples *)
Definition cloud : list vec :=
  [mkV 1 0 10; mkV (-1) 0 10; mkV 0 2 10; mkV 0 (-2) 10; mkV 0 0 (21 / 2); mkV 0 0 (19 / 2)].
Lemma cloud_valid : valid (cloud ++ [mkV 5 5 0]) = cloud.
Proof.
  unfold valid, cloud, positive. cbn.
  repeat match goal with |- context [Rlt_dec ?a ?b] => destruct (Rlt_dec a b); try lra end. reflexivity.
Qed.
Lemma cloud_scatter : scatter_of cloud = mkM3 (mkV 2 0 0) (mkV 0 8 0) (mkV 0 0 (1 / 2)).
Proof.
  unfold scatter_of. assert (mean cloud = mkV 0 0 10) as ->.
  { unfold mean, cloud. cbn. unfold vadd, vscal, v0. cbn. apply vec_eq; cbn; field. }
  unfold cloud, rsum, vsub. cbn. apply mat_eq; apply vec_eq; cbn; field.
Qed.
Example C34_example :
  let g := Expanded (Points [mkV 1 0 10; mkV (-1) 0 10; mkV 5 5 0]) (Expanded (Points [mkV 0 2 10]) (Points [mkV 0 (-2) 10; mkV 0 0 (21 / 2); mkV 0 0 (19 / 2)])) in
  s_n (grouped_sums g) = 6%nat /\ scatter (grouped_sums g) = mkM3 (mkV 2 0 0) (mkV 0 8 0) (mkV 0 0 (1 / 2)).
Proof.
  intros g.
  assert (grouped_sums g = grouped_sums (Points (cloud ++ [mkV 5 5 0]))) as ->.
  { apply C34_order_and_grouping_free. cbn. repeat constructor. change ([mkV 5 5 0; mkV 0 2 10; mkV 0 (-2) 10; mkV 0 0 (21 / 2); mkV 0 0 (19 / 2)])
      with ([mkV 5 5 0] ++ [mkV 0 2 10; mkV 0 (-2) 10; mkV 0 0 (21 / 2); mkV 0 0 (19 / 2)]).
    apply (Permutation_app_comm [mkV 5 5 0]). }
  destruct (C34_statistics (Points (cloud ++ [mkV 5 5 0]))) as [A B]. cbn [points_of] in *. rewrite cloud_valid in *.
  rewrite A. split; [reflexivity|]. destruct (B ltac:(discriminate)) as [_ ->]. apply cloud_scatter.
Qed.

(** C35: the scatter matrix is symmetric, positive semi-definite, and its value in a
    direction is the sum of squared deviations from the centroid in that direction. The
    bound of the diagonal by zero changes nothing. *)
Theorem C35_scatter : forall l,
  let s := accumulate l in
  valid l <> [] ->
  msym (scatter s) /\ mpsd (scatter s) /\
  (forall v, quad (scatter s) v = rsum (fun p => dot v (vsub p (centroid s)) * dot v (vsub p (centroid s))) (valid l)) /\
  vx (r0 (scatter s)) = s_xx s - s_x s * s_x s / INR (s_n s) /\
  vy (r1 (scatter s)) = s_yy s - s_y s * s_y s / INR (s_n s) /\
  vz (r2 (scatter s)) = s_zz s - s_z s * s_z s / INR (s_n s).
Proof.
  intros l s N. destruct (C34_statistics (Points l)) as [_ C]. cbn [grouped_sums points_of] in C. fold s in C.
  destruct (C N) as [Ec Es]. rewrite Ec.
  assert (forall v, quad (scatter s) v = rsum (fun p => dot v (vsub p (mean (valid l))) * dot v (vsub p (mean (valid l)))) (valid l)) as Q.
  { intros v. rewrite Es. apply quad_scatter. }
  split; [|split; [|split; [exact Q|]]].
  - unfold scatter, msym. cbv zeta. unfold mT. cbn [r0 r1 r2 vx vy vz]. reflexivity.
  - intros v. rewrite Q. apply rsum_nonneg. intros p _. apply Rle_0_sqr.
  - assert (forall f m, m = rsum f (valid l) / INR (length (valid l)) ->
      0 <= rsum (fun p => f p * f p) (valid l) - rsum f (valid l) * rsum f (valid l) * (1 / INR (length (valid l)))) as P.
    { intros f m E. rewrite <- (deviations f f (valid l) m m N E E). apply rsum_nonneg. intros. apply Rle_0_sqr. }
    unfold s. rewrite accumulate_valid. unfold scatter. cbn [r0 r1 r2 vx vy vz sums_of s_n s_x s_y s_z s_xx s_yy s_zz].
    rewrite !Rmax_pos_id by (eapply P; reflexivity). unfold Rdiv. rewrite !Rmult_1_l. auto.
Qed.
Print Assumptions C35_scatter.

(** C35: the fitted plane has a unit normal, passes through the centroid, and the camera
    (the origin) is on its positive side: the normal faces the camera. *)
Theorem C35_plane : forall solve p,
  let p' := fit solve p in
  p_planar p' = true -> is_unit (vnormalized (e_first (solve (scatter (p_sums p))))) ->
  is_unit (pl_normal (p_plane p')) /\ point_distance (p_plane p') (p_centroid p') = 0 /\
  p_centroid p' = centroid (p_sums p) /\
  0 <= pl_d (p_plane p') /\ 0 <= point_distance (p_plane p') v0.
Proof.
  intros solve p. unfold fit. cbv zeta. set (c := centroid (p_sums p)). set (e := solve (scatter (p_sums p))). set (n := vnormalized (e_first e)).
  destruct (Rle_dec _ epsilon) as [D|D]; [discriminate|]. cbn [p_planar p_plane p_centroid]. intros _ U.
  assert (is_unit (vneg n)) as U' by (unfold is_unit in *; rewrite <- U; v3ring).
  destruct (Rle_dec (- dot n c) 0) as [Q|Q]; unfold make_plane, point_distance; cbn [pl_normal pl_d];
    rewrite normalized_unit by assumption; (split; [assumption|]).
  - split; [rewrite dot_neg_l; ring|]. split; [reflexivity|]. split; [lra|]. rewrite (dot_comm _ v0), dot_0_l. lra.
  - split; [ring|]. split; [reflexivity|]. split; [lra|]. rewrite (dot_comm _ v0), dot_0_l. lra.
Qed.
Print Assumptions C35_plane.

(** C35: with a correct eigenvalue solver the fitted plane is the best one: no plane has a
    smaller sum of squared distances to the points, and the error reported is the mean
    of the squared distances to the plane. *)
Theorem C35_least_squares : forall solve p l,
  p_sums p = accumulate l -> valid l <> [] ->
  eigen_of (scatter (p_sums p)) (solve (scatter (p_sums p))) ->
  let p' := fit solve p in
  p_planar p' = true ->
  let n := pl_normal (p_plane p') in let d := pl_d (p_plane p') in
  (forall n' d', is_unit n' -> squared_distances n d (valid l) <= squared_distances n' d' (valid l)) /\
  p_mse p' = Some (squared_distances n d (valid l) / INR (length (valid l))).
Proof.
  intros solve p l Es N Ei p' Pl n d.
  destruct (C34_statistics (Points l)) as [L C]. cbn [grouped_sums points_of] in L, C. rewrite <- Es in L, C.
  destruct (C N) as [Ec Esc]. destruct (INR_len _ N) as [N0 N1].
  pose proof (eigen_first _ _ Ei) as F0.
  pose proof (fun n' U => eigen_rayleigh _ _ n' Ei U) as Ray.
  pose proof Ei as [_ (v1 & v2 & Uf & _)]. cbv zeta in Uf.
  assert (is_unit (vnormalized (e_first (solve (scatter (p_sums p)))))) as Un by (rewrite normalized_unit; assumption).
  destruct (C35_plane solve p Pl Un) as (Unit & Through & Cen & _).
  fold p' n d in Unit, Through, Cen.
  assert (quad (scatter_of (valid l)) n = vx (e_values (solve (scatter (p_sums p))))) as Qn.
  { rewrite <- Esc, <- F0. unfold n, p', fit. cbv zeta. destruct (Rle_dec _ epsilon) as [D|D].
    - exfalso. unfold p', fit in Pl. cbv zeta in Pl. destruct (Rle_dec _ epsilon) as [D'|D'] in Pl; [discriminate|contradiction].
    - cbn [p_plane]. rewrite (normalized_unit (e_first _)) by assumption.
      destruct (Rle_dec (- dot _ _) 0) as [Q|Q]; unfold make_plane; cbn [pl_normal].
      + rewrite normalized_unit; [|unfold is_unit in *; rewrite <- Uf; v3ring]. v3ring.
      + now rewrite normalized_unit. }
  assert (squared_distances n d (valid l) = vx (e_values (solve (scatter (p_sums p))))) as Sq.
  { rewrite squared_distances_eq by assumption. rewrite Qn.
    assert (dot n (mean (valid l)) + d = 0) as ->.
    { rewrite <- Ec, <- Cen. exact Through. }
    ring. }
  split.
  - intros n' d' U'. rewrite Sq. rewrite squared_distances_eq by assumption. rewrite <- Esc.
    pose proof (Ray n' U'). pose proof (Rle_0_sqr (dot n' (mean (valid l)) + d')) as H'. unfold Rsqr in H'.
    assert (0 <= INR (length (valid l)) * ((dot n' (mean (valid l)) + d') * (dot n' (mean (valid l)) + d'))) by (apply Rmult_le_pos; lra).
    lra.
  - assert (0 <= vx (e_values (solve (scatter (p_sums p))))) as Pos.
    { rewrite <- Sq. apply rsum_nonneg. intros. apply Rle_0_sqr. }
    rewrite Sq. unfold p', fit. cbv zeta. destruct (Rle_dec _ epsilon) as [D|D].
    + exfalso. unfold p', fit in Pl. cbv zeta in Pl. destruct (Rle_dec _ epsilon) as [D'|D'] in Pl; [discriminate|contradiction].
    + cbn [p_mse]. f_equal. rewrite Rabs_right by lra. rewrite L. unfold Rdiv. ring.
Qed.
Print Assumptions C35_least_squares.

(** C35: the fit is refused exactly when the determinant of the scatter is negligible,
    and it then keeps the previous plane *)
Theorem C35_refused : forall solve p,
  p_planar (fit solve p) = false <-> Rabs (det (scatter (p_sums p))) <= epsilon.
Proof.
  intros solve p. unfold fit. cbv zeta. destruct (Rle_dec _ epsilon) as [D|D]; cbn; split; intros H; try reflexivity; try assumption; try discriminate; contradiction.
Qed.
Print Assumptions C35_refused.

Definition cloud_segment : pseg := mkPseg (accumulate (cloud ++ [mkV 5 5 0])) false None 0 v0 (make_plane v0 0).
Definition cloud_solver (m : mat) : eigen := mkEigen (mkV (1 / 2) 2 8) (mkV 0 0 1).
Lemma cloud_sums : scatter (p_sums cloud_segment) = mkM3 (mkV 2 0 0) (mkV 0 8 0) (mkV 0 0 (1 / 2)).
Proof.
  destruct (C34_statistics (Points (cloud ++ [mkV 5 5 0]))) as [_ B]. cbn [points_of grouped_sums] in B. rewrite cloud_valid in B.
  destruct (B ltac:(discriminate)) as [_ E]. unfold cloud_segment. cbn [p_sums]. rewrite E. apply cloud_scatter.
Qed.
(** the hypotheses are met, the plane found is z = 10 *)
Example C35_example :
  let p := cloud_segment in
  valid (cloud ++ [mkV 5 5 0]) <> [] /\
  eigen_of (scatter (p_sums p)) (cloud_solver (scatter (p_sums p))) /\
  p_planar (fit cloud_solver p) = true /\
  pl_normal (p_plane (fit cloud_solver p)) = mkV 0 0 (-1) /\ pl_d (p_plane (fit cloud_solver p)) = 10 /\
  p_mse (fit cloud_solver p) = Some (1 / 12).
Proof.
  cbv zeta. split; [rewrite cloud_valid; discriminate|]. rewrite cloud_sums.
  assert (eigen_of (mkM3 (mkV 2 0 0) (mkV 0 8 0) (mkV 0 0 (1 / 2))) (mkEigen (mkV (1 / 2) 2 8) (mkV 0 0 1))) as Ei.
  { split; [cbn; lra|]. exists (mkV 1 0 0), (mkV 0 1 0). cbn [e_first e_values]. cbv zeta.
    unfold is_unit, dot. cbn [vx vy vz]. repeat (split; [lra|]).
    split; unfold madd, mscal, outer, mid, vadd, vscal; cbn [r0 r1 r2 vx vy vz]; apply mat_eq; apply vec_eq; cbn; lra. }
  split; [exact Ei|].
  assert (centroid (p_sums cloud_segment) = mkV 0 0 10) as Ec.
  { destruct (C34_statistics (Points (cloud ++ [mkV 5 5 0]))) as [_ B]. cbn [points_of grouped_sums] in B. rewrite cloud_valid in B.
    destruct (B ltac:(discriminate)) as [E _]. unfold cloud_segment. cbn [p_sums]. rewrite E.
    unfold mean, cloud. cbn. unfold vadd, vscal, v0. cbn. apply vec_eq; cbn; field. }
  assert (s_n (p_sums cloud_segment) = 6%nat) as En.
  { unfold cloud_segment. cbn [p_sums]. rewrite accumulate_valid, cloud_valid. reflexivity. }
  assert (is_unit (mkV 0 0 1)) as U by (unfold is_unit, dot; cbn; lra).
  unfold fit. cbv zeta. rewrite Ec, En. rewrite cloud_sums. unfold cloud_solver. cbn [e_first e_values vx vy vz].
  rewrite (normalized_unit _ U).
  assert (det (mkM3 (mkV 2 0 0) (mkV 0 8 0) (mkV 0 0 (1 / 2))) = 8) as -> by (unfold det, dot, cross; cbn; lra).
  assert (epsilon < 1) by (unfold epsilon; lra).
  destruct (Rle_dec (Rabs 8) epsilon) as [K|_]; [exfalso; rewrite Rabs_right in K; lra|].
  replace (dot (mkV 0 0 1) (mkV 0 0 10)) with 10 by (unfold dot; cbn; ring).
  destruct (Rle_dec (- (10)) 0) as [_|K]; [|lra]. cbn [p_planar p_plane p_mse make_plane pl_normal pl_d].
  split; [reflexivity|]. split; [|split; [lra|]].
  - rewrite normalized_unit; [|unfold is_unit, dot; cbn; lra]. unfold vneg. cbn. apply vec_eq; cbn; lra.
  - f_equal. rewrite Rabs_right by lra. cbn. field.
Qed.

(** C61: what a cell declared planar guarantees. *)
Section Cell.
Variable solve : mat -> eigen.
Variables width height min_points : nat.
Hypothesis wide : (2 <= width)%nat.
Hypothesis high : (2 <= height)%nat.
Hypothesis even_width : Nat.Even width.
Hypothesis even_height : Nat.Even height.
Notation init := (init_segment solve width height min_points).

Lemma row_indices z : map z (indices (pts width height) (S (width * height / 2)) (width * height / 2 + width) 1) = tl (central_row width height z).
Proof.
  destruct even_height as [h Eh].
  assert (width * height / 2 = width * (height / 2))%nat as E.
  { subst height. replace (width * (2 * h))%nat with ((width * h) * 2)%nat by lia. rewrite Nat.div_mul by lia.
    rewrite (Nat.mul_comm 2 h), Nat.div_mul by lia. reflexivity. }
  rewrite E. rewrite (indices_eq _ _ _ _ (width - 1)).
  - unfold central_row. destruct width as [|w] eqn:W; [lia|]. cbn [seq map tl]. rewrite <- seq_shift, !map_map.
    replace (S w - 1)%nat with w by lia. apply map_ext. intros k. f_equal. lia.
  - unfold pts. nia.
  - intros k Lk. lia.
  - right. lia.
Qed.
Lemma column_indices z :
  map z (indices (pts width height) (width / 2 + width) (pts width height - width / 2) width) = removelast (tl (central_column width height z)).
Proof.
  destruct even_width as [w Ew]. assert (width / 2 = w)%nat as E by (subst width; rewrite Nat.mul_comm, Nat.div_mul; lia).
  rewrite E. rewrite (indices_eq _ _ _ _ (height - 2)).
  - unfold central_column. rewrite E. destruct height as [|[|h]] eqn:Hh; [lia|lia|].
    replace (S (S h) - 2)%nat with h by lia.
    replace (seq 0 (S (S h))) with (0%nat :: (seq 1 h ++ [S h])) by (rewrite <- seq_S; reflexivity).
    cbn [map tl]. rewrite map_app. cbn [map]. rewrite removelast_last. rewrite <- seq_shift, !map_map. apply map_ext. intros k. f_equal. lia.
  - unfold pts. nia.
  - intros k Lk. unfold pts. nia.
  - right. unfold pts. nia.
Qed.

Theorem C61_planar_cell : forall cell,
  let z := fun i => vz (cell i) in
  let points := map cell (seq 0 (width * height)) in
  let p := init cell in
  p_planar p = true ->
  smooth (tl (central_row width height z)) /\
  smooth (removelast (tl (central_column width height z))) /\
  (width * height / 2 <= length (valid points))%nat /\ (min_points <= length (valid points))%nat /\
  p_sums p = accumulate points /\
  (exists q m, q = quantization (vz (mean (valid points))) /\ p_mse p = Some m /\ m <= q * q).
Proof.
  intros cell z points p. unfold p, init_segment. cbv zeta. fold z.
  destruct (horizontal_continuous width height z && vertical_continuous width height z)%bool eqn:C; [|discriminate].
  cbn [negb]. unfold pts. fold points.
  destruct (Nat.ltb_spec (length (filter positive points)) (width * height / 2)) as [L|L]; [discriminate|].
  assert (s_n (accumulate points) = length (valid points)) as En by (rewrite accumulate_valid; reflexivity).
  destruct (Nat.ltb_spec (s_n (accumulate points)) min_points) as [M|M]; [discriminate|].
  cbn [p_planar p_mse p_sums]. intros Pl.
  apply andb_true_iff in C. destruct C as [Ch Cv].
  split.
  { unfold horizontal_continuous in Ch. cbv zeta in Ch. destruct (Rle_dec _ 0) in Ch; [discriminate|].
    rewrite row_indices in Ch. now apply scan_iff in Ch. }
  split.
  { unfold vertical_continuous in Cv. cbv zeta in Cv. destruct (Rle_dec _ 0) in Cv; [discriminate|].
    rewrite column_indices in Cv. now apply scan_iff in Cv. }
  split; [exact L|]. split; [lia|].
  set (p0 := mkPseg _ _ _ _ _ _) in *.
  assert (forall q, p_sums (fit solve q) = p_sums q) as Keep by (intros q; unfold fit; cbv zeta; destruct (Rle_dec _ epsilon); reflexivity).
  split; [rewrite Keep; reflexivity|].
  destruct (p_mse (fit solve p0)) as [m|] eqn:Em; [|discriminate].
  destruct (Rle_dec m _) as [Q|Q]; [|discriminate].
  assert (p_centroid (fit solve p0) = centroid (accumulate points)) as Cen by (unfold fit; cbv zeta; destruct (Rle_dec _ epsilon); reflexivity).
  rewrite Cen in Q.
  assert (valid points <> []) as NE.
  { intros E0. unfold valid in E0. rewrite E0 in L. cbn [length] in L.
    assert (2 * 2 <= width * height)%nat by (apply Nat.mul_le_mono; assumption).
    assert (1 <= width * height / 2)%nat by (apply (Nat.div_le_mono 2 (width * height) 2); lia). lia. }
  destruct (C34_statistics (Points points)) as [_ B]. cbn [points_of grouped_sums] in B. destruct (B NE) as [E _]. rewrite E in Q.
  exists (quantization (vz (mean (valid points)))), m. auto.
Qed.
End Cell.
Print Assumptions C61_planar_cell.

(** C61: the first pixel of the central row and the first and last ones of the central
    column are not covered: four points of a slanted plane (with a correct solver),
    once row by row and once column by column *)
Definition slanted (i : nat) : vec :=
  match i with
  | 0%nat => mkV (-300 - 4 / 5) (-100) (5000 - 400 + 3 / 5)
  | 1%nat => mkV (300 + 4 / 5) (-100) (5000 + 400 - 3 / 5)
  | 2%nat => mkV (-300 + 4 / 5) 100 (5000 - 400 - 3 / 5)
  | _ => mkV (300 - 4 / 5) 100 (5000 + 400 + 3 / 5)
  end.
Definition turned (i : nat) : vec := slanted match i with 1%nat => 2%nat | 2%nat => 1%nat | _ => i end.
Definition slanted_solver (m : mat) : eigen := mkEigen (mkV 4 40000 1000000) (mkV (-4 / 5) 0 (3 / 5)).
Definition slanted_points : list vec := [slanted 0; slanted 1; slanted 2; slanted 3].
Lemma slanted_valid : valid slanted_points = slanted_points.
Proof.
  unfold valid, slanted_points, slanted, positive. cbn [filter vz].
  repeat match goal with |- context [Rlt_dec ?a ?b] => destruct (Rlt_dec a b); try lra end. reflexivity.
Qed.
Lemma slanted_mean : mean slanted_points = mkV 0 0 5000.
Proof. unfold mean, slanted_points, slanted. cbn. unfold vadd, vscal, v0. cbn. apply vec_eq; cbn; field. Qed.
Definition slanted_scatter : mat :=
  mkM3 (mkV (360000 + 64 / 25) 0 (480000 - 48 / 25)) (mkV 0 40000 0) (mkV (480000 - 48 / 25) 0 (640000 + 36 / 25)).
Lemma slanted_scatter_eq : scatter (accumulate slanted_points) = slanted_scatter.
Proof.
  rewrite accumulate_valid, slanted_valid, scatter_sums by discriminate. unfold scatter_of. rewrite slanted_mean.
  unfold slanted_points, slanted, slanted_scatter, rsum, vsub. cbn. apply mat_eq; apply vec_eq; cbn; field.
Qed.
Lemma slanted_eigen : eigen_of slanted_scatter (slanted_solver slanted_scatter).
Proof.
  split; [cbn; lra|]. exists (mkV 0 1 0), (mkV (3 / 5) 0 (4 / 5)). cbn [slanted_solver e_first e_values]. cbv zeta.
  unfold is_unit, dot. cbn [vx vy vz]. repeat (split; [lra|]).
  split; unfold slanted_scatter, madd, mscal, outer, mid, vadd, vscal; cbn [r0 r1 r2 vx vy vz]; apply mat_eq; apply vec_eq; cbn; lra.
Qed.
Lemma slanted_fit q score c pl :
  p_mse (fit slanted_solver (mkPseg (accumulate slanted_points) q None score c pl)) = Some 1.
Proof.
  unfold fit. cbv zeta. cbn [p_sums]. rewrite slanted_scatter_eq.
  assert (det slanted_scatter = 4 * 40000 * 1000000) as -> by (unfold det, slanted_scatter, dot, cross; cbn; lra).
  assert (epsilon < 1) by (unfold epsilon; lra).
  destruct (Rle_dec _ epsilon) as [K|_]; [exfalso; rewrite Rabs_right in K; lra|].
  cbn [p_mse slanted_solver e_values vx]. rewrite accumulate_valid, slanted_valid. cbn [sums_of s_n slanted_points length INR].
  f_equal. rewrite Rabs_right by lra. field.
Qed.
Lemma slanted_planar cell :
  Permutation (map cell (seq 0 4)) slanted_points ->
  horizontal_continuous 2 2 (fun i => vz (cell i)) = true -> vertical_continuous 2 2 (fun i => vz (cell i)) = true ->
  p_planar (init_segment slanted_solver 2 2 2 cell) = true.
Proof.
  intros P Ch Cv. unfold init_segment. cbv zeta. rewrite Ch, Cv. cbn [andb negb].
  change (pts 2 2) with 4%nat.
  assert (Permutation (filter positive (map cell (seq 0 4))) slanted_points) as Pv.
  { transitivity (valid slanted_points); [now apply filter_perm|now rewrite slanted_valid]. }
  rewrite (Permutation_length Pv). cbn [length slanted_points]. replace (Nat.ltb 4 (4 / 2)) with false by reflexivity.
  assert (accumulate (map cell (seq 0 4)) = accumulate slanted_points) as E.
  { rewrite !accumulate_valid. apply sums_of_perm. now apply filter_perm. }
  rewrite E. assert (s_n (accumulate slanted_points) = 4%nat) as En by (rewrite accumulate_valid, slanted_valid; reflexivity).
  rewrite En. replace (Nat.ltb 4 2) with false by reflexivity. cbn [p_planar]. rewrite slanted_fit.
  assert (forall q score c pl, p_centroid (fit slanted_solver (mkPseg (accumulate slanted_points) q None score c pl)) = mkV 0 0 5000) as Cen.
  { intros. destruct (C34_statistics (Points slanted_points)) as [_ B]. cbn [points_of grouped_sums] in B.
    rewrite slanted_valid in B. destruct (B ltac:(discriminate)) as [Ec _]. rewrite slanted_mean in Ec.
    rewrite <- Ec. unfold fit. cbv zeta. destruct (Rle_dec _ epsilon); reflexivity. }
  rewrite Cen. cbn [vz]. destruct (Rle_dec 1 _) as [K|K]; [reflexivity|]. exfalso. apply K.
  assert (1 <= quantization 5000) as Q by (unfold quantization; eapply Rle_trans; [|apply Rmax_l]; lra).
  nra.
Qed.

Lemma quantization_small z : 4000 <= z -> z <= 5500 -> quantization z <= 100.
Proof. intros A B. unfold quantization. apply Rmax_lub; nra. Qed.
Lemma slanted_checks cell :
  (forall i, (i < 4)%nat -> 4000 <= vz (cell i)) -> vz (cell 2%nat) <= vz (cell 3%nat) ->
  horizontal_continuous 2 2 (fun i => vz (cell i)) = true.
Proof.
  intros P M. unfold horizontal_continuous. cbv zeta. change (2 * 2 / 2)%nat with 2%nat. cbn [indices pts Nat.mul Nat.add Nat.ltb Nat.leb map].
  rewrite Rmax_right by assumption. pose proof (P 3%nat ltac:(lia)).
  destruct (Rle_dec _ 0) as [K|_]; [lra|]. cbn [scan]. unfold continuous_step.
  destruct (Rlt_dec 0 _) as [_|K]; [|lra].
  destruct (Rle_dec (Rabs _) _) as [_|K]; [reflexivity|]. exfalso. apply K. rewrite Rminus_eq_0, Rabs_R0.
  unfold quantization. pose proof (Rmax_r (-53 / 100 + 74 / 100 / 1000 * vz (cell 3%nat) + 273 / 100 * (1 / 1000 * (1 / 1000)) * (vz (cell 3%nat) * vz (cell 3%nat))) (1 / 2)). lra.
Qed.
Lemma slanted_checks_v cell :
  (forall i, (i < 4)%nat -> 4000 <= vz (cell i)) ->
  vertical_continuous 2 2 (fun i => vz (cell i)) = true.
Proof.
  intros P. unfold vertical_continuous. cbv zeta. change (2 / 2)%nat with 1%nat. cbn [indices pts Nat.mul Nat.add Nat.sub Nat.ltb Nat.leb map scan].
  pose proof (P 1%nat ltac:(lia)). pose proof (Rmax_l (vz (cell 1%nat)) (vz (cell 3%nat))). destruct (Rle_dec _ 0) as [K|_]; [lra|]. reflexivity.
Qed.
Lemma jump_not_smooth a b : 0 < a -> 4000 <= b <= 5500 -> a + 500 <= b -> ~ smooth [a; b].
Proof.
  intros Pa Pb J S. assert (Rabs (b - a) <= 4 * quantization b) as B.
  { apply (S 0%nat 1%nat); try reflexivity; try lra; [lia|]. intros k zk Lk. lia. }
  pose proof (quantization_small b ltac:(lra) ltac:(lra)). rewrite Rabs_right in B by lra. lra.
Qed.

Theorem C61_whole_row_refuted :
  exists cell, p_planar (init_segment slanted_solver 2 2 2 cell) = true /\
    (let m := scatter (accumulate (map cell (seq 0 4))) in eigen_of m (slanted_solver m)) /\
    ~ smooth (central_row 2 2 (fun i => vz (cell i))).
Proof.
  exists slanted. split; [|split].
  - apply slanted_planar; [reflexivity| |].
    + apply slanted_checks; [|cbn; lra]. intros [|[|[|[|i]]]] L; cbn; try lra; lia.
    + apply slanted_checks_v. intros [|[|[|[|i]]]] L; cbn; try lra; lia.
  - cbv zeta. change (map slanted (seq 0 4)) with slanted_points. rewrite slanted_scatter_eq. apply slanted_eigen.
  - unfold central_row. cbn -[smooth]. apply jump_not_smooth; lra.
Qed.
Print Assumptions C61_whole_row_refuted.

Theorem C61_whole_column_refuted :
  exists cell, p_planar (init_segment slanted_solver 2 2 2 cell) = true /\
    (let m := scatter (accumulate (map cell (seq 0 4))) in eigen_of m (slanted_solver m)) /\
    ~ smooth (central_column 2 2 (fun i => vz (cell i))).
Proof.
  assert (Permutation (map turned (seq 0 4)) slanted_points) as P.
  { cbn. unfold slanted_points, turned. apply perm_skip. apply perm_swap. }
  exists turned. split; [|split].
  - apply slanted_planar; [exact P| |].
    + apply slanted_checks; [|cbn; lra]. intros [|[|[|[|i]]]] L; cbn; try lra; lia.
    + apply slanted_checks_v. intros [|[|[|[|i]]]] L; cbn; try lra; lia.
  - cbv zeta. assert (accumulate (map turned (seq 0 4)) = accumulate slanted_points) as ->.
    { rewrite !accumulate_valid. apply sums_of_perm. now apply filter_perm. }
    rewrite slanted_scatter_eq. apply slanted_eigen.
  - unfold central_column. cbn -[smooth]. apply jump_not_smooth; lra.
Qed.
Print Assumptions C61_whole_column_refuted.

(** the hypotheses of C61_planar_cell are met by this cell *)
Example C61_example :
  (2 <= 2)%nat /\ Nat.Even 2 /\ p_planar (init_segment slanted_solver 2 2 2 slanted) = true /\
  tl (central_row 2 2 (fun i => vz (slanted i))) = [5000 + 400 + 3 / 5].
Proof.
  split; [lia|]. split; [now exists 1%nat|]. split; [|reflexivity].
  apply slanted_planar; [reflexivity| |].
  - apply slanted_checks; [|cbn; lra]. intros [|[|[|[|i]]]] L; cbn; try lra; lia.
  - apply slanted_checks_v. intros [|[|[|[|i]]]] L; cbn; try lra; lia.
Qed.
