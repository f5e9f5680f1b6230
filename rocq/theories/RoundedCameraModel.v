(** Model of the changes between screen, camera and world coordinates, with the rounding of the
    machine. Source: /repo/src/coordinates/point_coordinates.cpp:80-93, 150-167, 201-210 and 292-297,
    parameters.hpp:144-149. GeometryModel has the same functions without rounding (C45, C46).
    A [double] is a real number of the format of 53 bits; each operation is rounded to nearest even.
    Simplified: overflow to infinity is not modelled (the theorems bound the values); operations are
    not fused (the project is built without the options that would allow it); the terms of a product
    of matrices are added from left to right. *)
From Verif Require Export GeometryModel.
From Verif Require RoundedGridModel.
Local Open Scope R_scope.

Definition rnd (x : R) : R := RoundedGridModel.rounded x.
Definition radd (a b : R) : R := rnd (a + b).
Definition rsub (a b : R) : R := rnd (a - b).
Definition rmul (a b : R) : R := rnd (a * b).
Definition rdiv (a b : R) : R := rnd (a / b).
Definition rdot (a b : vec) : R := radd (radd (rmul (vx a) (vx b)) (rmul (vy a) (vy b))) (rmul (vz a) (vz b)).
Definition rmvmul (m : mat) (v : vec) : vec := mkV (rdot (r0 m) v) (rdot (r1 m) v) (rdot (r2 m) v).

(** Eigen's [inverse()] of a 3 x 3 matrix (compute_inverse of size 3, called at
    point_coordinates.cpp:82): cofactors times the inverse of the determinant, which is the sum of
    the first column times its cofactors *)
Definition nth3 (v : vec) (j : nat) : R := match j with O => vx v | S O => vy v | _ => vz v end.
Definition entry (m : mat) (i j : nat) : R := nth3 (match i with O => r0 m | S O => r1 m | _ => r2 m end) j.
Definition next (i : nat) : nat := match i with O => 1 | S O => 2 | _ => 0 end.
Definition cofactor (m : mat) (i j : nat) : R :=
  let i1 := next i in let i2 := next i1 in let j1 := next j in let j2 := next j1 in
  rsub (rmul (entry m i1 j1) (entry m i2 j2)) (rmul (entry m i1 j2) (entry m i2 j1)).
Definition determinant (m : mat) : R :=
  rdot (mkV (cofactor m 0 0) (cofactor m 1 0) (cofactor m 2 0)) (mkV (entry m 0 0) (entry m 1 0) (entry m 2 0)).
Definition rinverse (m : mat) : mat :=
  let invdet := rdiv 1 (determinant m) in
  let e i j := rmul (cofactor m j i) invdet in
  mkM3 (mkV (e 0 0) (e 0 1) (e 0 2))%nat (mkV (e 1 0) (e 1 1) (e 1 2))%nat (mkV (e 2 0) (e 2 1) (e 2 2))%nat.

(** [ScreenCoordinate::to_camera_coordinates], point_coordinates.cpp:150-167, with
    [transform_screen_to_camera], 80-84 *)
Definition rscreen_to_camera (k : mat) (s : vec) : result vec :=
  if Rlt_dec (vx s) 0 then Throws
  else if Rlt_dec (vy s) 0 then Throws
  else if double_equal (vz s) 0 then Throws
  else let h := rmvmul (rinverse k) (mkV (vx s) (vy s) 1) in
       Value (mkV (rmul (vz s) (vx h)) (rmul (vz s) (vy h)) (vz s)).
(** [CameraCoordinate::to_screen_coordinates], point_coordinates.cpp:201-210, with
    [transform_camera_to_screen], 89-93. [None]: the depth is zero; the program then finds a NaN and
    returns false, or an infinite position. *)
Definition rcamera_to_screen (k : mat) (p : vec) : option vec :=
  if Req_EM_T (vz p) 0 then None
  else let h := rmvmul k p in
       let inv := rdiv 1 (vz p) in
       Some (mkV (rmul inv (vx h)) (rmul inv (vy h)) (vz p)).
(** [WorldCoordinate::to_camera_coordinates], point_coordinates.cpp:292-297, with the constructor of
    point_coordinates.hpp:128-131 *)
Definition rdot4 (a b : vec) (c d : R) : R := radd (rdot a b) (rmul c d).
Definition rpoint_to_camera (w2c : m4) (p : vec) : vec :=
  let w := rdot4 (row w2c) p (corner w2c) 1 in
  mkV (rdiv (rdot4 (r0 (lin w2c)) p (vx (col w2c)) 1) w)
      (rdiv (rdot4 (r1 (lin w2c)) p (vy (col w2c)) 1) w)
      (rdiv (rdot4 (r2 (lin w2c)) p (vz (col w2c)) 1) w).
(** [WorldCoordinate::to_screen_coordinates], point_coordinates.cpp:227-231 *)
Definition rworld_to_screen (k : mat) (w2c : m4) (p : vec) : option vec := rcamera_to_screen k (rpoint_to_camera w2c p).
