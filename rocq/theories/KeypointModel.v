(** Model of the keypoint container of a frame and of the functions that match
    map points to its keypoints.
    Source: /repo/src/features/keypoints/keypoint_handler.{hpp,cpp},
    /repo/src/map_management/map_features/map_point.cpp, map_point2d.cpp,
    map_primitive.cpp (find_matches).
    Simplifications: pixel coordinates (float / double) are rationals, without
    rounding; [int] conversions of indexes do not overflow. *)
From Coq Require Export QArith Qround.
From Verif Require Export FeatureMapModel.
Local Open Scope Z_scope.

(** unsigned 32 bit arithmetic *)
Definition u32 (x : Z) : Z := x mod 2 ^ 32.

(** parameters::matching::matchSearchRadius_px = 30, cells of 31 pixels
    (keypoint_handler.cpp:40) *)
Definition matchSearchRadius : Z := 30.
Definition cellSize : Z := matchSearchRadius + 1.

(** number of cells, keypoint_handler.cpp:43-44: [ceil(n / cellSize)] *)
Definition cell_count (n : Z) : Z := (n + (cellSize - 1)) / cellSize.

(** A keypoint: screen position and depth ([ScreenCoordinate]). *)
Record keypoint := mkKp { kp_x : Q; kp_y : Q; kp_depth : Q }.

(** State of [Keypoint_Handler], keypoint_handler.hpp:230-247. [kh_rows] is the
    number of rows of the descriptors matrix. *)
Record handler := mkHandler {
  kh_cx : Z;
  kh_cy : Z;
  kh_keypoints : list keypoint;
  kh_ids : list (N * nat);
  kh_rows : nat;
  kh_cells : list (list nat)
}.

(** constructor, keypoint_handler.cpp:28-53 (the matching distance is > 0) *)
Definition kh_new (cols rows : Z) : handler :=
  let cx := cell_count cols in
  let cy := cell_count rows in
  mkHandler cx cy [] [] 0 (repeat [] (Z.to_nat (cx * cy))).

(** [std::clamp] *)
Definition zclamp (x lo hi : Z) : Z := if x <? lo then lo else if hi <? x then hi else x.

(** [get_search_space_coordinates], keypoint_handler.cpp:130-137: (row, column) *)
Definition kh_coords (h : handler) (x y : Q) : Z * Z :=
  (zclamp (Qfloor (y / inject_Z cellSize)) 0 (kh_cy h - 1),
   zclamp (Qfloor (x / inject_Z cellSize)) 0 (kh_cx h - 1)).

(** [get_search_space_index(x, y)], keypoint_handler.cpp:128: the row is
    multiplied by the number of rows of cells *)
Definition kh_index (h : handler) (x y : Z) : Z := u32 (y * kh_cy h + x).

Fixpoint list_update {A} (l : list A) (i : nat) (f : A -> A) : option (list A) :=
  match l, i with
  | [], _ => None
  | x :: l', O => Some (f x :: l')
  | x :: l', S i' => option_map (cons x) (list_update l' i' f)
  end.

(** first loop of [set], keypoint_handler.cpp:83-96: [UB] is an access outside
    of the cells container *)
Fixpoint kh_place (h : handler) (i : nat) (kps : list keypoint) (cells : list (list nat))
  : outcome (list (list nat)) :=
  match kps with
  | [] => Ret cells
  | k :: kps' =>
    let '(cy, cx) := kh_coords h (kp_x k) (kp_y k) in
    match list_update cells (Z.to_nat (kh_index h cx cy)) (fun c => c ++ [i]) with
    | None => UB
    | Some cells' => kh_place h (S i) kps' cells'
    end
  end.

(** second loop of [set], keypoint_handler.cpp:100-121: the identifier map;
    [_uniqueIdsToKeypointIndex[id] = index] replaces an earlier entry *)
Fixpoint kh_track (offset i : nat) (tracked : list (N * keypoint)) (ids : list (N * nat)) : list (N * nat) :=
  match tracked with
  | [] => ids
  | (id, _) :: tr' =>
    kh_track offset (S i) tr'
      (if N.ltb 0 id then (id, (i + offset)%nat) :: filter (fun e => negb (N.eqb (fst e) id)) ids else ids)
  end.

(** [set], keypoint_handler.cpp:68-122, on a cleared handler (74, 55-66);
    [rows] is the number of rows of [inDescriptors] *)
Definition kh_set (detected : list keypoint) (rows : nat) (tracked : list (N * keypoint)) (h : handler)
  : outcome handler :=
  let* cells := kh_place h 0 detected (map (fun _ => []) (kh_cells h)) in
  Ret (mkHandler (kh_cx h) (kh_cy h) (detected ++ map snd tracked)
         (kh_track (length detected) 0 tracked []) rows cells).

(** [get_tracking_match_index(id)], keypoint_handler.cpp:191-208 *)
Definition kh_tracking (h : handler) (id : N) : option nat :=
  match kh_keypoints h with
  | [] => None
  | _ :: _ =>
    if N.eqb id 0 then None
    else match find (fun e => N.eqb (fst e) id) (kh_ids h) with Some e => Some (snd e) | None => None end
  end.

(** [get_tracking_match_index(id, flags)], keypoint_handler.cpp:210-232 *)
Definition kh_tracking_flags (h : handler) (id : N) (flags : list bool) : outcome (option nat) :=
  match kh_tracking h id with
  | None => Ret None
  | Some i =>
    match nth_error flags i with
    | None => UB
    | Some b => Ret (if b then None else Some i)
    end
  end.

Definition sq_dist (k : keypoint) (x y : Q) : Q :=
  ((kp_x k - x) * (kp_x k - x) + (kp_y k - y) * (kp_y k - y))%Q.

(** [fill_keypoint_mask], keypoint_handler.cpp:169-189 *)
Fixpoint kh_fill (h : handler) (x y : Q) (cell : list nat) (flags : list bool) (mask : list bool)
  : outcome (list bool) :=
  match cell with
  | [] => Ret mask
  | i :: cell' =>
    match nth_error flags i with
    | None => UB
    | Some true => kh_fill h x y cell' flags mask
    | Some false =>
      match nth_error (kh_keypoints h) i with
      | None => UB
      | Some k =>
        if Qle_bool (sq_dist k x y) (inject_Z (matchSearchRadius * matchSearchRadius))
        then match list_update mask i (fun _ => true) with
             | None => UB
             | Some mask' => kh_fill h x y cell' flags mask'
             end
        else kh_fill h x y cell' flags mask
      end
    end
  end.

(** values of a [for (uint i = a; i < b; ++i)] loop *)
Definition urange (a b : Z) : list Z := map (fun n => a + Z.of_nat n) (seq 0 (Z.to_nat (b - a))).

Fixpoint kh_scan (h : handler) (x y : Q) (cells : list (Z * Z)) (flags mask : list bool)
  : outcome (list bool) :=
  match cells with
  | [] => Ret mask
  | (j, i) :: cells' =>
    match nth_error (kh_cells h) (Z.to_nat (kh_index h j i)) with
    | None => UB
    | Some cell => let* mask' := kh_fill h x y cell flags mask in kh_scan h x y cells' flags mask'
    end
  end.

(** [compute_key_point_mask], keypoint_handler.cpp:139-167; the lower bounds
    are computed with unsigned numbers: [max(0U, row - radius)] wraps *)
Definition kh_mask (h : handler) (x y : Q) (flags : list bool) (radius : Z) : outcome (list bool) :=
  let '(cy, cx) := kh_coords h x y in
  let startY := Z.max 0 (u32 (cy - radius)) in
  let startX := Z.max 0 (u32 (cx - radius)) in
  let endY := Z.min (kh_cy h) (u32 (cy + radius + 1)) in
  let endX := Z.min (kh_cx h) (u32 (cx + radius + 1)) in
  kh_scan h x y (flat_map (fun i => map (fun j => (j, i)) (urange startX endX)) (urange startY endY))
    flags (repeat false (kh_rows h)).

(** radius in cells, keypoint_handler.cpp:250: [ceil(radius / cellSize)];
    30 pixels in a basic search, 60 in an advanced one (map_point.cpp:78-80) *)
Definition cell_radius (advanced : bool) : Z :=
  cell_count (if advanced then 2 * matchSearchRadius else matchSearchRadius).

(** [knnMatch(descriptor, _descriptors, 2, mask)]: the two nearest allowed
    rows, nearest first; [dist] is the Hamming distance of the searched
    descriptor to each row (equal distances: lowest row first). *)
Fixpoint knn_insert (i : nat) (d : N) (best : list (nat * N)) : list (nat * N) :=
  match best with
  | [] => [(i, d)]
  | (i1, d1) :: best' => if N.ltb d d1 then (i, d) :: best else (i1, d1) :: knn_insert i d best'
  end.
Fixpoint knn_scan (dist : nat -> N) (i : nat) (mask : list bool) (best : list (nat * N)) : list (nat * N) :=
  match mask with
  | [] => best
  | b :: mask' =>
    knn_scan dist (S i) mask' (if b then firstn 2 (knn_insert i (dist i) best) else best)
  end.

(** [get_match_indexes], keypoint_handler.cpp:234-282; the ratio test compares
    with 0.7 times the second distance *)
Definition kh_match (h : handler) (dist : nat -> N) (x y : Q) (flags : list bool) (advanced : bool)
  : outcome (list nat) :=
  match kh_keypoints h with
  | [] => Ret []
  | _ :: _ =>
    if Nat.eqb (kh_rows h) 0 then Ret []
    else
      let* mask := kh_mask h x y flags (cell_radius advanced) in
      Ret (match knn_scan dist 0 mask [] with
           | [] => []
           | [(i, _)] => [i]
           | (i, d) :: (_, d') :: _ => if N.ltb (10 * d) (7 * d') then [i] else []
           end)
  end.

(** ** [find_matches] of the three kinds *)
Section Find.
(** payload of a feature, view (camera pose) and optimisation feature; the
    projection to the screen ([None]: not a valid screen position) and the
    descriptor distances are oracles *)
Context {D Cam Mt : Type}.
Variable proj : Cam -> D -> option (Q * Q).
Variable dist : D -> nat -> N.
Variable mk_match : feat D -> nat -> Mt.

(** window search shared by map_point.cpp:92-100 and map_point2d.cpp:103-112 *)
Definition window_find (h : handler) (cam : Cam) (adv : bool) (d : D) (flags : list bool) : outcome (list nat) :=
  match proj cam d with
  | None => Ret []
  | Some (x, y) => kh_match h (dist d) x y flags adv
  end.

(** [MapPoint::find_matches], map_point.cpp:71-114 *)
Definition point_find (h : handler) (cam : Cam) (adv add : bool) (f : feat D) (flags : list bool)
  : outcome (list nat * list Mt) :=
  let* idx := match kh_tracking h (f_id f) with
              | Some i => Ret [i]
              | None => window_find h cam adv (f_data f) flags
              end in
  Ret (idx, if add then map (mk_match f) idx else []).

(** [MapPoint2D::find_matches], map_point2d.cpp:87-141: a tracked keypoint is
    recognised but not returned; a window match is returned but never given to
    the optimisation *)
Definition point2d_find (h : handler) (cam : Cam) (adv add : bool) (f : feat D) (flags : list bool)
  : outcome (list nat * list Mt) :=
  let* t := kh_tracking_flags h (f_id f) flags in
  match t with
  | Some _ => Ret ([], [])
  | None => let* idx := window_find h cam adv (f_data f) flags in Ret (idx, [])
  end.

(** [MapPlane::find_matches], map_primitive.cpp:91-161. [sim cam adv f i]:
    the inter area of detected plane [i] when it passes the distance, normal and
    overlap tests, [None] otherwise; [area]: the projected area is positive.
    Plane 0 is never selected (145). *)
Fixpoint plane_best (sim : nat -> option Q) (i : nat) (flags : list bool) (best : option nat) (greatest : Q)
  : option nat :=
  match flags with
  | [] => best
  | b :: flags' =>
    if b then plane_best sim (S i) flags' best greatest
    else match sim i with
         | Some a => if negb (Qle_bool a greatest)
                     then plane_best sim (S i) flags' (Some i) a
                     else plane_best sim (S i) flags' best greatest
         | None => plane_best sim (S i) flags' best greatest
         end
  end.
Definition plane_find (sim : nat -> option Q) (area : bool) (add : bool) (f : feat D) (flags : list bool)
  : list nat * list Mt :=
  if negb area then ([], [])
  else match plane_best sim 0 flags None 0%Q with
       | None => ([], [])
       | Some O => ([], [])
       | Some i => ([i], if add then [mk_match f i] else [])
       end.
End Find.
