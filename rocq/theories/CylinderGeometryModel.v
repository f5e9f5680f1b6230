(** Model of the estimation of a cylinder from the normals and centroids of plane patches.
    Source: /repo/src/features/primitives/cylinder_segment.cpp:103-140 (projections), 175-213 (least
    squares, error), 256-291 (hypothesis of three cells).
    Numbers are reals: rounding is not modelled; the axis given by the eigenvalue solver is
    an argument. *)
From Verif Require Export Vec3.
Local Open Scope R_scope.

(** a patch: normal, centroid *)
Notation patch := (vec * vec)%type.

(** projection on the plane of the axis, 108-118, and normalisation, 120-124 *)
Definition project (axis v : vec) : vec := vsub v (vscal (dot axis v) axis).
Definition project_patch (axis : vec) (p : patch) : patch :=
  let n := project axis (fst p) in (vscal (/ norm n) n, project axis (snd p)).

(** least squares on projected patches, 175-208, and, with three patches, 265-279 *)
Definition lls_a (l : list patch) : R := 1 - sqn (vsum fst l) * (1 / (INR (length l) * INR (length l))).
Definition lls_b (l : list patch) : R :=
  rsum (fun p => dot (fst p) (snd p)) l / INR (length l) - dot (vsum fst l) (vsum snd l) * (1 / (INR (length l) * INR (length l))).
Definition lls_radius (l : list patch) : R := lls_b l / lls_a l.
Definition lls_center (l : list patch) : vec := vscal (1 / INR (length l)) (vsub (vsum snd l) (vscal (lls_radius l) (vsum fst l))).

(** radius reported for a part, 196-198 *)
Definition part_radius (l : list patch) : R := if Rlt_dec (lls_radius l) 0 then - lls_radius l else lls_radius l.
(** mean squared error of a part, 201-222; [l]: projected patches, [c]: centroids *)
Definition axis_distance (p1 p2 p3 : vec) : R := norm (cross (vsub p2 p1) (vsub p3 p2)) / norm (vsub p2 p1).
Definition part_mse (axis : vec) (l : list patch) (centroids : list vec) : R :=
  let p1 := lls_center l in
  let p2 := vadd p1 axis in
  rsum (fun p3 => (axis_distance p1 p2 p3 - part_radius l) * (axis_distance p1 p2 p3 - part_radius l)) centroids / INR (length l).
(** distance of a patch to a hypothesis, 287-290 *)
Definition hypothesis_distance (l : list patch) (p : patch) : R :=
  sqn (vsub (vsub (snd p) (vscal (lls_radius l) (fst p))) (lls_center l)) * (1 / (lls_radius l * lls_radius l)).

(** the estimation for given axis and patches *)
Definition estimate (axis : vec) (l : list patch) : R * vec * R :=
  let l' := map (project_patch axis) l in
  (part_radius l', lls_center l', part_mse axis l' (map snd l)).
