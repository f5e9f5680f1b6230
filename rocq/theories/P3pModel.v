(** Model of the perspective 3 points solver (lambda twist).
    Source: /repo/third_party/p3p.cpp. Numbers are reals: rounding is not modelled. A division
    by zero, or the root of a negative number, is [None]: not a number. The comparisons with it
    are false. *)
From Verif Require Export Vec3.
From Coq Require Import List.
Import ListNotations.
Local Open Scope bool_scope.
Local Open Scope R_scope.

Definition obind {A B} (o : option A) (f : A -> option B) : option B := match o with Some a => f a | None => None end.
Notation "x <- e ; f" := (obind e (fun x => f)) (at level 61, e at next level, right associativity).
Definition divide (a b : R) : option R := if Req_EM_T b 0 then None else Some (a / b).
Definition root (a : R) : option R := if Rlt_dec a 0 then None else Some (sqrt a).
Definition less (a b : R) : bool := if Rlt_dec a b then true else false.
(** [std::cbrt] *)
Definition cbrt (a : R) : R :=
  if Rlt_dec 0 a then Rpower a (/ 3) else if Rlt_dec a 0 then - Rpower (- a) (/ 3) else 0.

(** ** Eigenvectors of a symmetric matrix with a null eigenvalue *)

Definition e00 (m : mat) : R := vx (r0 m).
Definition e01 (m : mat) : R := vy (r0 m).
Definition e02 (m : mat) : R := vz (r0 m).
Definition e11 (m : mat) : R := vy (r1 m).
Definition e12 (m : mat) : R := vz (r1 m).
Definition e22 (m : mat) : R := vz (r2 m).
(** a column of [E], p3p.cpp:47-51 and 53-57 *)
Definition eigenvector (m : mat) (sig : R) : option vec :=
  let c := sig * sig + e00 m * e11 m - sig * (e00 m + e11 m) - e01 m * e01 m in
  a1 <- divide (sig * e02 m + e01 m * e12 m - e02 m * e11 m) c;
  a2 <- divide (sig * e12 m + e01 m * e02 m - e00 m * e12 m) c;
  let n := 1 / sqrt (1 + a1 * a1 + a2 * a2) in
  Some (mkV (a1 * n) (a2 * n) n).
(** [compute_eig3x3known0], p3p.cpp:33-61: the two eigenvectors and the two eigenvalues *)
Definition eig3x3known0 (m : mat) : option ((vec * vec) * (R * R)) :=
  let p1 := - e00 m - e11 m - e22 m in
  let p0 := - e01 m * e01 m - e02 m * e02 m - e12 m * e12 m + e00 m * (e11 m + e22 m) + e11 m * e22 m in
  disc <- root (p1 * p1 / 4 - p0);
  let tmp := - p1 / 2 in
  let s1 := tmp + disc in
  let s2 := tmp - disc in
  let '(sig1, sig2) := if less (Rabs s1) (Rabs s2) then (s2, s1) else (s1, s2) in
  v1 <- eigenvector m sig1;
  v2 <- eigenvector m sig2;
  Some ((v1, v2), (sig1, sig2)).

(** ** Distances: [a12], .. are the squared distances of the points, [b12], .. the cosines of
    the angles of the rays, 101-112 *)
Record dists := mkD { a12 : R; a13 : R; a23 : R; b12 : R; b13 : R; b23 : R }.
Record triple := mkT { t0 : vec; t1 : vec; t2 : vec }.
Definition distances (x X : triple) : dists :=
  mkD (sqn (vsub (t0 X) (t1 X))) (sqn (vsub (t0 X) (t2 X))) (sqn (vsub (t1 X) (t2 X)))
      (dot (t0 x) (t1 x)) (dot (t0 x) (t2 x)) (dot (t1 x) (t2 x)).

(** [refine_lambda], 64-84: at most 5 steps *)
Fixpoint refine (steps : nat) (d : dists) (l1 l2 l3 : R) : option (R * R * R) :=
  match steps with
  | O => Some (l1, l2, l3)
  | S steps =>
    let q1 := l1 * l1 - 2 * l1 * l2 * b12 d + l2 * l2 - a12 d in
    let q2 := l1 * l1 - 2 * l1 * l3 * b13 d + l3 * l3 - a13 d in
    let q3 := l2 * l2 - 2 * l2 * l3 * b23 d + l3 * l3 - a23 d in
    if less (Rabs q1 + Rabs q2 + Rabs q3) (1 / 10 ^ 10) then Some (l1, l2, l3)
    else
      let x11 := l1 - l2 * b12 d in let x12 := l2 - l1 * b12 d in
      let x21 := l1 - l3 * b13 d in let x23 := l3 - l1 * b13 d in
      let x32 := l2 - l3 * b23 d in let x33 := l3 - l2 * b23 d in
      det <- divide (1 / 2) (x11 * x23 * x32 + x12 * x21 * x33);
      refine steps d (l1 + (- x23 * x32 * q1 - x12 * x33 * q2 + x12 * x23 * q3) * det)
                     (l2 + (- x21 * x33 * q1 + x11 * x33 * q2 - x11 * x23 * q3) * det)
                     (l3 + (x21 * x32 * q1 - x11 * x32 * q2 - x12 * x21 * q3) * det)
  end.

(** ** The singular combination *)

(** [D1], [D2], 119-121 *)
Definition D1 (d : dists) : mat :=
  mkM3 (mkV (a23 d) (- (a23 d * b12 d)) 0)
       (mkV (- (a23 d * b12 d)) (a23 d - a12 d) (a12 d * b23 d))
       (mkV 0 (a12 d * b23 d) (- a12 d)).
Definition D2 (d : dists) : mat :=
  mkM3 (mkV (a23 d) 0 (- (a23 d * b13 d)))
       (mkV 0 (- a13 d) (a13 d * b23 d))
       (mkV (- (a23 d * b13 d)) (a13 d * b23 d) (a23 d - a13 d)).
(** a column *)
Definition col0 (m : mat) : vec := r0 (mT m).
Definition col1 (m : mat) : vec := r1 (mT m).
Definition col2 (m : mat) : vec := r2 (mT m).
(** the columns of [DX1], [DX2], 123-125 *)
Definition columns (a b c : vec) : mat := mT (mkM3 a b c).
Definition cofactors (m : mat) : mat := columns (cross (col1 m) (col2 m)) (cross (col2 m) (col0 m)) (cross (col0 m) (col1 m)).
(** [(a.array() * b.array()).sum()] *)
Definition array_dot (a b : mat) : R := dot (r0 a) (r0 b) + dot (r1 a) (r1 b) + dot (r2 a) (r2 b).
(** a root of the monic cubic, 139-153 *)
Definition cubic_root (k2 k1 k0 : R) : option R :=
  let a := k1 - k2 * k2 / 3 in
  let b := (2 * k2 * k2 * k2 - 9 * k2 * k1) / 27 + k0 in
  let c := b * b / 4 + a * a * a / 27 in
  if Rlt_dec 0 c then
    let c := sqrt c in
    let b := b * (- (1 / 2)) in
    Some (cbrt (b + c) + cbrt (b - c) - k2 / 3)
  else
    h <- divide (3 * b) (2 * a);
    k <- divide (-3) a;
    r <- root k;
    let c := h * r in
    m <- root (- a / 3);
    if less 1 (Rabs c) then None
    else Some (2 * m * cos (acos c / 3) - k2 / 3).
(** [gamma], 127-159 *)
Definition gamma (d : dists) : option R :=
  let d3 := dot (col0 (D2 d)) (col0 (cofactors (D2 d))) in
  let d2 := array_dot (D1 d) (cofactors (D2 d)) in
  let d1 := array_dot (D2 d) (cofactors (D1 d)) in
  let d0 := dot (col0 (D1 d)) (col0 (cofactors (D1 d))) in
  inv <- divide 1 d3;
  let k2 := d2 * inv in let k1 := d1 * inv in let k0 := d0 * inv in
  g <- cubic_root k2 k1 k0;
  let f := g * g * g + k2 * g * g + k1 * g + k0 in
  let df := 3 * g * g + 2 * k2 * g + k1 in
  step <- divide f df;
  Some (g - step).
(** [E] and [s], 162-169; the two planes [u] of the loop on [s_flip], 184-188 *)
Definition planes (d : dists) : option (vec * vec) :=
  g <- gamma d;
  e <- eig3x3known0 (madd (D1 d) (mscal g (D2 d)));
  let '((v1, v2), (sig1, sig2)) := e in
  r <- divide (- sig2) sig1;
  s <- root r;
  Some (vsub v1 (vscal s v2), vsub v1 (vscal (- s) v2)).

(** ** The poses *)

Record camera_pose := mkPose { rotation : mat; translation : vec }.
(** [XX], 174-176: the inverse of the matrix of the columns [dX12], [dX13] and their product *)
Definition inverse3 (m : mat) : option mat :=
  k <- divide 1 (det m);
  Some (mscal k (mkM3 (cross (col1 m) (col2 m)) (cross (col2 m) (col0 m)) (cross (col0 m) (col1 m)))).
Definition frame_of (v w : vec) : mat := columns v w (cross v w).
Definition inverse_frame (X : triple) : option mat :=
  inverse3 (frame_of (vsub (t0 X) (t1 X)) (vsub (t0 X) (t2 X))).
(** the pose given by three depths, 224-230 and 262-268; [None]: not made of numbers *)
Definition pose_of (x X : triple) (l1 l2 l3 : R) : option camera_pose :=
  l <- refine 5 (distances x X) l1 l2 l3;
  XX <- inverse_frame X;
  let '(l1, l2, l3) := l in
  let v1 := vsub (vscal l1 (t0 x)) (vscal l2 (t1 x)) in
  let v2 := vsub (vscal l1 (t0 x)) (vscal l3 (t2 x)) in
  let R := mmul (frame_of v1 v2) XX in
  Some (mkPose R (vsub (vscal l1 (t0 x)) (mvmul R (t0 X)))).
(** the three depths for a ratio [tau], 217-219 and 256-258 *)
Definition depths (switch : bool) (d : dists) (w0 w1 tau : R) : option (R * R * R) :=
  if switch then
    k <- divide (a13 d) (tau * (tau - 2 * b13 d) + 1);
    l1 <- root k;
    let l3 := tau * l1 in
    Some (l1, w0 * l1 + w1 * l3, l3)
  else
    k <- divide (a23 d) (tau * (tau - 2 * b23 d) + 1);
    l2 <- root k;
    let l3 := tau * l2 in
    Some (w0 * l2 + w1 * l3, l2, l3).
(** the body of the loop on [tau_flip], 215-237 and 254-273: the poses added, and if the rest
    is skipped by [continue]. A ratio or a depth that is not a number is said to add a pose that
    is not made of numbers: the code adds it or not, according to the sign of the infinity *)
Definition body (x X : triple) (switch : bool) (w0 w1 : R) (tau : option R) : list (option camera_pose) * bool :=
  match tau with
  | None => ([None], false)
  | Some tau =>
    if less 0 tau then
      match depths switch (distances x X) w0 w1 tau with
      | None => ([None], false)
      | Some (l1, l2, l3) =>
        if less (if switch then l2 else l1) 0 then ([], true) else ([pose_of x X l1 l2 l3], false)
      end
    else ([], false)
  end.
(** [TOL_DOUBLE_ROOT], 182 *)
Definition tolerance : R := 1 / 10 ^ 12.
(** the coefficients of the second degree equation of [tau], 200-202 and 246-248 *)
Definition quadratic (switch : bool) (d : dists) (w0 w1 : R) : R * R * R :=
  if switch then
    (- a13 d * w1 * w1 + 2 * (a13 d * b23 d) * w1 - a13 d + a23 d,
     2 * (a13 d * b23 d) * w0 - 2 * (a23 d * b13 d) - 2 * a13 d * w0 * w1,
     - a13 d * w0 * w0 + a23 d)
  else
    ((a13 d - a12 d) * w1 * w1 + 2 * a12 d * b13 d * w1 - a12 d,
     - 2 * a13 d * b12 d * w1 + 2 * a12 d * b13 d * w0 - 2 * w0 * w1 * (a12 d - a13 d),
     (a13 d - a12 d) * w0 * w0 - 2 * a13 d * b12 d * w0 + a13 d).
(** [switch_12], [w0] and [w1], 193-199 and 244-245 *)
Definition weights (u : vec) : bool * option (R * R) :=
  if less (Rabs (vx u)) (Rabs (vy u))
  then (true, w0 <- divide (- vx u) (vy u); w1 <- divide (- vz u) (vy u); Some (w0, w1))
  else (false, w0 <- divide (- vy u) (vx u); w1 <- divide (- vz u) (vx u); Some (w0, w1)).
(** [b2m4ac], 204 and 249 *)
Definition discriminant (q : R * R * R) : R := let '(a, b, c) := q in b * b - 4 * a * c.
(** one turn of the loop on [s_flip], 184-275 *)
Definition solve_plane (x X : triple) (u : vec) : list (option camera_pose) :=
  let '(switch, w) := weights u in
  match w with
  | None => []
  | Some (w0, w1) =>
    let q := quadratic switch (distances x X) w0 w1 in
    let '(a, b, c) := q in
    let disc := discriminant q in
    if less disc (- tolerance) then []
    else
      let sq := sqrt (Rmax 0 disc) in
      let tau := if less 0 b then divide (2 * c) (- b - sq) else divide (2 * c) (- b + sq) in
      let '(poses, skip) := body x X switch w0 w1 tau in
      if negb skip && less disc tolerance then poses
      else poses ++ fst (body x X switch w0 w1 (t <- tau; divide c (a * t)))
  end.
(** [p3p], 88-277. The assertions are compiled out *)
Definition p3p (x X : triple) : list (option camera_pose) :=
  match planes (distances x X) with
  | None => []
  | Some (u, v) => solve_plane x X u ++ solve_plane x X v
  end.
