(** Specification of the plane segments: what the words of the properties mean. *)
From Verif Require Import PlaneSegmentModel.
Local Open Scope R_scope.

(** points with a measured depth *)
Definition valid (l : list vec) : list vec := filter positive l.
(** mean of points and products of deviations to it *)
Definition mean (l : list vec) : vec := vscal (/ INR (length l)) (vsum (fun p => p) l).
Definition scatter_of (l : list vec) : mat :=
  let dev := fun (f g : vec -> R) => rsum (fun p => f (vsub p (mean l)) * g (vsub p (mean l))) l in
  mkM3 (mkV (dev vx vx) (dev vx vy) (dev vx vz)) (mkV (dev vy vx) (dev vy vy) (dev vy vz)) (mkV (dev vz vx) (dev vz vy) (dev vz vz)).

(** points grouped by successive expansions, in any order *)
Inductive grouping :=
| Points (l : list vec)
| Expanded (a b : grouping).
Fixpoint grouped_sums (g : grouping) : sums :=
  match g with Points l => accumulate l | Expanded a b => expand (grouped_sums a) (grouped_sums b) end.
Fixpoint points_of (g : grouping) : list vec :=
  match g with Points l => l | Expanded a b => points_of a ++ points_of b end.

(** [e] is a correct answer of the solver for [m]: [m] is diagonal with the given
    ascending values in an orthonormal basis which starts with the given vector *)
Definition eigen_of (m : mat) (e : eigen) : Prop :=
  vx (e_values e) <= vy (e_values e) <= vz (e_values e) /\
  exists v1 v2,
    let v := e_first e in
    is_unit v /\ is_unit v1 /\ is_unit v2 /\ dot v v1 = 0 /\ dot v v2 = 0 /\ dot v1 v2 = 0 /\
    madd (outer v v) (madd (outer v1 v1) (outer v2 v2)) = mid /\
    m = madd (mscal (vx (e_values e)) (outer v v)) (madd (mscal (vy (e_values e)) (outer v1 v1)) (mscal (vz (e_values e)) (outer v2 v2))).

(** sum of squared distances of points to the plane [n . p + d = 0] *)
Definition squared_distances (n : vec) (d : R) (l : list vec) : R := rsum (fun p => (dot n p + d) * (dot n p + d)) l.

(** no depth jump between a measured depth and the next measured one *)
Definition smooth (zs : list R) : Prop :=
  forall i j zi zj, (i < j)%nat -> nth_error zs i = Some zi -> nth_error zs j = Some zj -> 0 < zi -> 0 < zj ->
  (forall k zk, (i < k < j)%nat -> nth_error zs k = Some zk -> zk <= 0) ->
  Rabs (zj - zi) <= 4 * quantization zj.
(** depths of the central row, and of the central column *)
Definition central_row (width height : nat) (z : nat -> R) : list R := map (fun c => z (width * (height / 2) + c)%nat) (seq 0 width).
Definition central_column (width height : nat) (z : nat -> R) : list R := map (fun r => z (width / 2 + r * width)%nat) (seq 0 height).
