(** Model of the fit of cylinders on groups of plane patches.
    Source: /repo/src/features/primitives/cylinder_segment.cpp,
    /repo/src/features/primitives/shape_primitives.cpp:17-25,
    /repo/src/features/primitives/primitive_detection.cpp:478-501 and 705-734. *)
From Verif Require Export DoubleModel.
From Verif Require Import PrimitiveModel.
Local Open Scope nat_scope.

Section Fit.
(** cells of the group ([_cellActivatedCount]), numbered from 0 *)
Variable n : nat.
(** truncated distance of cell [i] to the cylinder given by three cells, 268-299: a
    number computed from normals and centroids, an oracle *)
Variable distance : nat * nat * nat -> nat -> dbl.
(** [cylinderRansacSqrtMaxDistance] *)
Variable max_distance : dbl.
(** [maximumSqrtDistance * planeIdsLeft] and [floor(0.9 * planeIdsLeft)] *)
Variable start_distance : nat -> dbl.
Variable accepted : nat -> nat.

(** MSAC score of a hypothesis, 281-300: inliers and truncated distance, over the
    cells left *)
Definition score_step (h : nat * nat * nat) (left : nat -> bool) (a : list nat * dbl) (i : nat) : list nat * dbl :=
  if negb (left i) then a
  else
    let d := distance h i in
    if dlt d max_distance then (fst a ++ [i], dadd (snd a) d) else (fst a, dadd (snd a) max_distance).
Definition score (h : nat * nat * nat) (left : nat -> bool) : list nat * dbl :=
  fold_left (score_step h left) (seq 0 n) ([], dzero).

(** one loop of [run_ransac_loop], 250-311, with the draws [ds]: positions in the ids left;
    [Undef]: a draw is out of range *)
Fixpoint ransac_loop (ids : list nat) (left : nat -> bool) (ds : list (nat * nat * nat)) (best : list nat) (least : dbl) : res (list nat) :=
  match ds with
  | [] => Ret best
  | (a, b, c) :: ds' =>
    match nth_error ids a, nth_error ids b, nth_error ids c with
    | Some ia, Some ib, Some ic =>
      let '(inliers, d) := score (ia, ib, ic) left in
      if dlt d least then
        (* after the swap, the early stop looks at the previous best set *)
        if Nat.ltb (accepted (length ids)) (length best) then Ret inliers
        else ransac_loop ids left ds' inliers d
      else ransac_loop ids left ds' best least
    | _, _, _ => Undef
    end
  end.
(** [run_ransac_loop], 226-319 *)
Definition ransac (ids : list nat) (left : nat -> bool) (ds : list (nat * nat * nat)) : res (list nat) :=
  if Nat.ltb (length ids) 3 then Ret []
  else ransac_loop ids left ds [] (start_distance (length ids)).

(** [minimumCellActivated] and [planeSegmentsLeft > 0.1 * _cellActivatedCount] *)
Variable min_cells : nat.
Variable enough : nat -> bool.
(** draws of each call of [run_ransac_loop]: call number, number of ids left *)
Variable draws : nat -> nat -> list (nat * nat * nat).

(** sequential loop of the constructor, 150-178; [k]: number of parts; [count]:
    [planeSegmentsLeft] *)
Fixpoint parts (fuel k : nat) (ids : list nat) (left : nat -> bool) (count : Z) (groups : list (list nat)) : res (list (list nat)) :=
  match fuel with
  | 0 => OutOfFuel
  | S fuel' =>
    if (Z.of_nat min_cells <? count)%Z && enough (Z.to_nat count) then
      let* inliers := ransac ids left (draws k (length ids)) in
      if Nat.ltb (length inliers) 6 then Ret groups
      else
        let final := fun i => existsb (Nat.eqb i) inliers in
        let group := filter final (seq 0 n) in
        let left' := fun i => left i && negb (final i) in
        parts fuel' (S k) (filter left' (seq 0 n)) left' ((count - Z.of_nat (length group)) mod 2 ^ 32)%Z (groups ++ [group])
    else Ret groups
  end.
(** constructor, 35-224; [cylinder_like]: the score of the normals is at least 75 *)
Variable cylinder_like : bool.
Definition segment_parts (fuel : nat) : res (list (list nat)) :=
  if cylinder_like then parts fuel 0 (seq 0 n) (fun _ => true) (Z.of_nat n) [] else Ret [].
End Fit.

(** the cells of the parts in the grid: [_local2globalMap], 43-70 *)
Definition to_global (act : list nat) (groups : list (list nat)) : list (list nat) :=
  map (map (fun i => nth i act 0)) groups.

(** ** The object and its copies *)
(** [Cylinder_Segment]: number of parts, radii, axis *)
Record cylinder := mkCylinder { c_count : nat; c_radius : list dbl; c_axis : dbl * dbl * dbl }.
(** copy constructor, 22-33 *)
Definition copy (c : cylinder) : cylinder := mkCylinder 0 (c_radius c) (c_axis c).
(** [Cylinder(const Cylinder_Segment&)], shape_primitives.cpp:17-25; [Undef]: the index is out
    of the radii *)
Fixpoint add_radii (k : nat) (radii : list dbl) (sum : dbl) : res dbl :=
  match k with
  | 0 => Ret sum
  | S k' => match radii with r :: radii' => add_radii k' radii' (dadd sum r) | [] => Undef end
  end.
Definition shape_radius (c : cylinder) : res dbl :=
  let* s := add_radii (c_count c) (c_radius c) dzero in Ret (ddiv s (d_of_Z (Z.of_nat (c_count c)))).
(** [cylinder_fitting] stores a copy, primitive_detection.cpp:483-484;
    [add_cylinders_to_primitives] reports the stored objects, 729-732 *)
Definition reported_radius (c : cylinder) : res dbl := shape_radius (copy c).
