(** Model of a plane segment: sums of the points, fit, checks of a depth cell.
    Source: /repo/src/features/primitives/plane_segment.cpp,
    /repo/src/features/primitives/plane_segment.hpp:27-39,
    /repo/src/coordinates/plane_coordinates.hpp:18-66, /repo/src/utils/covariances.cpp:12-19.
    Numbers are reals: rounding is not modelled. *)
From Verif Require Export Vec3.
Local Open Scope R_scope.

(** [PlaneCoordinates]: normal and distance coefficient. Every constructor
    normalises the normal (18-29) *)
Record plane := mkPlane { pl_normal : vec; pl_d : R }.
Definition make_plane (n : vec) (d : R) : plane := mkPlane (vnormalized n) d.
(** [get_point_distance], 51-55; [get_center], 50; [get_cos_angle], 56-59 *)
Definition point_distance (p : plane) (x : vec) : R := dot (pl_normal p) x + pl_d p.
Definition plane_center (p : plane) : vec := vscal (- pl_d p) (pl_normal p).
Definition cos_angle (p q : plane) : R := dot (pl_normal p) (pl_normal q).

(** [get_depth_quantization], covariances.cpp:12-19 *)
Definition quantization (depth : R) : R :=
  Rmax (-53 / 100 + 74 / 100 / 1000 * depth + 273 / 100 * (1 / 1000 * (1 / 1000)) * (depth * depth)) (1 / 2).

(** [Plane_Segment]: point count, sums, results of the last fit. [MSE] starts at the
    greatest double: [None] *)
Record sums := mkSums { s_n : nat; s_x : R; s_y : R; s_z : R; s_xx : R; s_yy : R; s_zz : R; s_xy : R; s_yz : R; s_zx : R }.
Record pseg := mkPseg { p_sums : sums; p_planar : bool; p_mse : option R; p_score : R; p_centroid : vec; p_plane : plane }.

(** [clear_plane_parameters], 289-312 *)
Definition no_sums : sums := mkSums 0 0 0 0 0 0 0 0 0 0.
Definition cleared : pseg := mkPseg no_sums false None 0 v0 (make_plane v0 0).

(** accumulation of one point, 128-150 *)
Definition add_point (s : sums) (p : vec) : sums :=
  let x := vx p in let y := vy p in let z := vz p in
  if Rlt_dec 0 z then
    mkSums (S (s_n s)) (s_x s + x) (s_y s + y) (s_z s + z) (s_xx s + x * x) (s_yy s + y * y) (s_zz s + z * z)
           (s_xy s + x * y) (s_yz s + y * z) (s_zx s + x * z)
  else s.
Definition accumulate (l : list vec) : sums := fold_left add_point l no_sums.

(** [expand_segment], 170-190: only the sums *)
Definition expand (a b : sums) : sums :=
  mkSums (s_n a + s_n b) (s_x a + s_x b) (s_y a + s_y b) (s_z a + s_z b) (s_xx a + s_xx b) (s_yy a + s_yy b) (s_zz a + s_zz b)
         (s_xy a + s_xy b) (s_yz a + s_yz b) (s_zx a + s_zx b).

(** [get_point_cloud_Huygen_covariance], 205-230 *)
Definition scatter (s : sums) : mat :=
  let one := 1 / INR (s_n s) in
  let xx := Rmax 0 (s_xx s - s_x s * s_x s * one) in
  let yy := Rmax 0 (s_yy s - s_y s * s_y s * one) in
  let zz := Rmax 0 (s_zz s - s_z s * s_z s * one) in
  let xy := s_xy s - s_x s * s_y s * one in
  let xz := s_zx s - s_x s * s_z s * one in
  let yz := s_yz s - s_y s * s_z s * one in
  mkM3 (mkV xx xy xz) (mkV xy yy yz) (mkV xz yz zz).

(** [get_point_cloud_covariance], 192-203: the matrix inverted *)
Definition hessian (s : sums) : mat :=
  mkM3 (mkV (s_xx s) (s_xy s) (s_zx s)) (mkV (s_xy s) (s_yy s) (s_yz s)) (mkV (s_zx s) (s_yz s) (s_zz s)).

Definition centroid (s : sums) : vec := vscal (1 / INR (s_n s)) (mkV (s_x s) (s_y s) (s_z s)).

(** [Eigen::SelfAdjointEigenSolver]: eigenvalues and eigenvectors of a matrix, an oracle *)
Record eigen := mkEigen { e_values : vec; e_first : vec }.
(** [std::numeric_limits<double>::epsilon()] *)
Definition epsilon : R := / 4503599627370496.

Section Fit.
Variable solve : mat -> eigen.
(** [fit_plane], 232-284 *)
Definition fit (p : pseg) : pseg :=
  let s := p_sums p in
  let one := 1 / INR (s_n s) in
  let c := centroid s in
  let cov := scatter s in
  if Rle_dec (Rabs (det cov)) epsilon then mkPseg s false (p_mse p) (p_score p) c (p_plane p)
  else
    let e := solve cov in
    let l0 := Rabs (vx (e_values e)) in
    let l1 := Rabs (vy (e_values e)) in
    let n := vnormalized (e_first e) in
    let d := - dot n c in
    let pl := if Rle_dec d 0 then make_plane (vneg n) (- d) else make_plane n d in
    mkPseg s true (Some (l0 * one)) (l1 / Rmax l0 (1 / 1000000)) c pl.

(** ** A cell of the depth image: [width] x [height] points, row by row *)
Variables width height : nat.
Definition pts : nat := width * height.

(** [is_continuous], 44-60: [None] on a jump, else the new reference depth *)
Definition continuous_step (z last : R) : option R :=
  if Rlt_dec 0 z then
    if Rle_dec (Rabs (z - last)) (4 * quantization z) then Some z else None
  else Some last.
Fixpoint scan (zs : list R) (last : R) : bool :=
  match zs with
  | [] => true
  | z :: zs' => match continuous_step z last with Some last' => scan zs' last' | None => false end
  end.

(** indices visited by [for (i = start; i < stop; i += step)] *)
Fixpoint indices (fuel start stop step : nat) : list nat :=
  match fuel with
  | 0%nat => []
  | S fuel' => if Nat.ltb start stop then start :: indices fuel' (start + step) stop step else []
  end.
(** [is_cell_vertical_continuous], 62-80 *)
Definition vertical_continuous (z : nat -> R) : bool :=
  let start := (width / 2)%nat in
  let stop := (pts - start)%nat in
  let last := Rmax (z start) (z (start + width)%nat) in
  if Rle_dec last 0 then false
  else scan (map z (indices pts (start + width) stop width)) last.
(** [is_cell_horizontal_continuous], 82-100; [_cellWidth * (_cellHeight / 2.0)] truncated *)
Definition horizontal_continuous (z : nat -> R) : bool :=
  let start := (width * height / 2)%nat in
  let stop := (start + width)%nat in
  let last := Rmax (z start) (z (S start)) in
  if Rle_dec last 0 then false
  else scan (map z (indices pts (S start) stop 1)) last.

(** [_minZeroPointCount], plane_segment.hpp:33-34: 0.7 of the points *)
Variable min_points : nat.
Definition positive (p : vec) : bool := if Rlt_dec 0 (vz p) then true else false.
(** [init_plane_segment], 102-168; [cell i]: point [i] of the cell *)
Definition init_segment (cell : nat -> vec) : pseg :=
  let z := fun i => vz (cell i) in
  if negb (horizontal_continuous z && vertical_continuous z)%bool then cleared
  else if Nat.ltb (length (filter positive (map cell (seq 0 pts)))) (pts / 2) then cleared
  else
    let s := accumulate (map cell (seq 0 pts)) in
    let p := mkPseg s false None 0 v0 (make_plane v0 0) in
    if Nat.ltb (s_n s) min_points then p
    else
      let p := fit p in
      let q := quantization (vz (p_centroid p)) in
      let planar := match p_mse p with Some m => if Rle_dec m (q * q) then true else false | None => false end in
      mkPseg (p_sums p) planar (p_mse p) (p_score p) (p_centroid p) (p_plane p).
End Fit.

(** [can_be_merged], 324-328; [angle]: cosine of the largest merge angle *)
Definition can_be_merged (angle : R) (p q : pseg) (distance : R) : bool :=
  if Rlt_dec angle (cos_angle (p_plane p) (p_plane q)) then
    if Rlt_dec (Rabs (point_distance (p_plane p) (p_centroid q))) distance then true else false
  else false.

(** tolerance of a cell, primitive_detection.cpp:186-221: [first] and [last] are the points of
    its corners, [sine] the sine of the largest merge angle *)
Definition merge_distance : R := 50.
Definition cell_tolerance (sine : R) (p : pseg) (first last : vec) : R :=
  if p_planar p then Rmin merge_distance (norm (vsub last first) * sine * sqrt (INR (s_n (p_sums p)))) else 0.
