(** Model of the search of new keypoints around the tracked ones: the mask given to the
    detectors, kept between the frames, and the refinement of what they find.
    Source: /repo/src/features/keypoints/keypoint_detection.cpp. The detectors are seen as all
    the corners of a window, of which OpenCV removes those on a black pixel of the mask
    ([cv::FastFeatureDetector], [KeyPointsFilter::runByPixelsMask]); [disc] is the set of the
    pixels drawn by [cv::circle]. *)
From Verif Require Export DetectionModel.
Local Open Scope Z_scope.

(** [trackedMaskRadius_px], parameters.hpp:49-50 *)
Definition mask_radius : Z := 15.
(** [cv::Mat_<uchar>]: a pixel is white (255) or black (0) *)
Record mask := mkMask { mk_cols : Z; mk_rows : Z; mk_white : Z -> Z -> bool }.

(** [Terminates]: an exception leaves a function which does not throw. [Unfinished]: a worker
    has not finished. *)
Inductive search (A : Type) := Found (a : A) | Terminates | Unfinished.
Arguments Found {A}. Arguments Terminates {A}. Arguments Unfinished {A}.

Section Mask.
(** the pixels of the disc of a center and a radius *)
Variable disc : Z * Z -> Z -> Z -> Z -> bool.

(** the memory of a new matrix is not initialised: the content is [garbage] *)
Definition allocate (cols rows : Z) (garbage : Z -> Z -> bool) : mask := mkMask cols rows garbage.
(** [setTo(255)], keypoint_detection.cpp:122 *)
Definition set_white (m : mask) : mask := mkMask (mk_cols m) (mk_rows m) (fun _ _ => true).
(** [cv::circle], keypoint_detection.cpp:128: the center is rounded *)
Definition draw_disc (m : mask) (p : pt) : mask :=
  mkMask (mk_cols m) (mk_rows m)
    (fun x y => if disc (cv_round (fst p), cv_round (snd p)) mask_radius x y then false else mk_white m x y).
(** [compute_key_point_mask], keypoint_detection.cpp:111-156: the mask is a static variable, of
    the size of the first image; [before] is what the last call left *)
Definition compute_mask (before : option mask) (cols rows : Z) (garbage : Z -> Z -> bool) (tracked : list pt) : mask :=
  let m := match before with Some m => m | None => allocate cols rows garbage end in
  fold_left draw_disc tracked (set_white m).

(** [cv::Mat::operator()(Rect)]: throws when the rectangle is not in the image *)
Definition roi_ok (r : rect) (cols rows : Z) : bool :=
  (0 <=? re_x r) && (0 <=? re_w r) && (re_x r + re_w r <=? cols) &&
  (0 <=? re_y r) && (0 <=? re_h r) && (re_y r + re_h r <=? rows).
(** the corners of a window on a white pixel *)
Definition run_by_mask (m : mask) (r : rect) (l : list cvkp) : list cvkp :=
  filter (fun k => mk_white m (re_x r + k_x k) (re_y r + k_y k)) l.
Definition masked (m : mask) (r : rect) (o : window_oracle) : window_oracle :=
  mkWO (run_by_mask m r (wo_detect o)) (run_by_mask m r (wo_advanced o)).

(** One image: its size, the points tracked in it, its corners by window, how the workers
    are scheduled, the refinement and the description *)
Record picture := mkPicture {
  pi_cols : Z; pi_rows : Z;
  pi_tracked : list pt;
  pi_corners : nat -> window_oracle;
  pi_schedule : list nat;
  pi_refine : list (Z * Z) -> list pt;
  pi_describe : list pt -> list pt
}.
(** [perform_keypoint_detection], keypoint_detection.cpp:404-474. [width] and [height] are those
    of the parameters, from which the windows are made (24-31, 71-83). *)
Definition perform_detection (width height : Z) (garbage : Z -> Z -> bool) (before : option mask) (f : picture)
  : search (mask * list cvkp) :=
  let m := compute_mask before (pi_cols f) (pi_rows f) garbage (pi_tracked f) in
  let searched i := N.ltb (window_counter width height (pi_tracked f) i) max_by_cell in
  let readable i := roi_ok (window width height i) (pi_cols f) (pi_rows f) &&
                    roi_ok (window width height i) (mk_cols m) (mk_rows m) in
  if forallb (fun i => if searched i then readable i else true) (seq 0 window_count)
  then match detect_with width height (pi_tracked f) (fun i => masked m (window width height i) (pi_corners f i)) (pi_schedule f) with
       | Some l => Found (m, l)
       | None => Unfinished
       end
  else Terminates.
(** [detect_keypoints], keypoint_detection.cpp:86-109, and the description of its result in
    [compute_keypoints], 221-243 *)
Definition new_points (f : picture) (l : list cvkp) : list pt :=
  match l with
  | [] => []
  | _ :: _ => pi_describe f (pi_refine f (map (fun k => (k_x k, k_y k)) l))
  end.
(** Successive searches: the points detected in each image and the points given *)
Fixpoint searches (width height : Z) (garbage : Z -> Z -> bool) (before : option mask) (fs : list picture)
  : search (list (list cvkp * list pt)) :=
  match fs with
  | [] => Found []
  | f :: fs' =>
    match perform_detection width height garbage before f with
    | Found (m, l) =>
      match searches width height garbage (Some m) fs' with
      | Found rs => Found ((l, new_points f l) :: rs)
      | Terminates => Terminates
      | Unfinished => Unfinished
      end
    | Terminates => Terminates
    | Unfinished => Unfinished
    end
  end.
End Mask.
