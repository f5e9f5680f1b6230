(** Model of the uses of the camera parameters: each function keeps what it reads in a function
    local static variable, for the rest of the program. Sources are cited below. *)
From Verif Require Export ParametersModel.
Local Open Scope Z_scope.

(** The places of the code which read the parameters of the first camera, and keep them *)
Inductive site :=
| To_camera           (* transform_screen_to_camera, src/coordinates/point_coordinates.cpp:79-83 *)
| To_screen           (* transform_camera_to_screen, src/coordinates/point_coordinates.cpp:88-92 *)
| In_screen_2d        (* ScreenCoordinate2D::is_in_screen_boundaries, src/coordinates/point_coordinates.cpp:113-121 *)
| In_screen           (* ScreenCoordinate::is_in_screen_boundaries, src/coordinates/point_coordinates.cpp:169-179 *)
| Search_windows      (* Key_Point_Extraction::Key_Point_Extraction, src/features/keypoints/keypoint_detection.cpp:24-31 *)
| Flow_window         (* Key_Point_Extraction::compute_keypoints, src/features/keypoints/keypoint_detection.cpp:177-180 *)
| Screen_polygon      (* get_static_screen_boundary_polygon, src/utils/polygon.cpp:24-46 *)
| Screen_covariance   (* get_screen_point_covariance, src/utils/covariances.cpp:21-32 *)
| Camera_covariance.  (* get_camera_point_covariance, src/utils/covariances.cpp:80-95 *)
Definition site_eqb (a b : site) : bool :=
  match a, b with
  | To_camera, To_camera | To_screen, To_screen | In_screen_2d, In_screen_2d | In_screen, In_screen
  | Search_windows, Search_windows | Flow_window, Flow_window | Screen_polygon, Screen_polygon
  | Screen_covariance, Screen_covariance | Camera_covariance, Camera_covariance => true
  | _, _ => false
  end.
(** What a place works with: a matrix (focal lengths and center), a size, focal lengths and
    center. The inverse of the matrix is left to the use of [To_camera]. *)
Inductive value :=
| Matrix (k : real * real * real * real)
| Size (w h : Z)
| Focal (fx fy : real)
| Lens (fx fy cx cy : real).

Section Use.
Context {T : Type}.
Record memory := mkMemory { me_store : store T; me_kept : site -> option value }.
Definition me_init (t0 : T) : memory := mkMemory (st_init t0) (fun _ => None).
Definition keep (s : site) (v : value) (kept : site -> option value) : site -> option value :=
  fun s' => if site_eqb s s' then Some v else kept s'.
(** What a place reads at its first use: the getters of parameters.hpp:137-150; the divisions
    and the subtraction are on unsigned integers. *)
Definition read (s : site) (st : store T) : store T * value :=
  let c := st_1 st in
  match s with
  | To_camera | To_screen => let '(st', k) := intrinsics_1 st in (st', Matrix k)
  | In_screen_2d | In_screen => (st, Size (c_w c) (c_h c))
  | Search_windows => (st, Size (c_w c / 3) (c_h c / 3))
  | Flow_window => (st, Size (c_w c / 12) (c_h c / 9))
  | Screen_polygon => (st, Size (to_uint (c_w c - 1)) (to_uint (c_h c - 1)))
  | Screen_covariance => (st, Focal (c_fx c) (c_fy c))
  | Camera_covariance => (st, Lens (c_fx c) (c_fy c) (c_cx c) (c_cy c))
  end.
Definition use (s : site) (m : memory) : memory * value :=
  match me_kept m s with
  | Some v => (m, v)
  | None => let '(st, v) := read s (me_store m) in (mkMemory st (keep s v (me_kept m)), v)
  end.
(** Calls of a program: those on the parameters, and the uses *)
Inductive call := Params (c : pcall T) | Use (s : site).
Variable identity : T.
(** [None]: the program has ended. The results are those of the uses, in order. *)
Fixpoint run (cs : list call) (m : memory) : option (memory * list value) :=
  match cs with
  | [] => Some (m, [])
  | Params c :: cs' =>
    match pexec identity c (me_store m) with
    | Some st => run cs' (mkMemory st (me_kept m))
    | None => None
    end
  | Use s :: cs' =>
    let '(m', v) := use s m in
    match run cs' m' with Some (m'', vs) => Some (m'', v :: vs) | None => None end
  end.
(** The constructor of [RGBD_SLAM], src/rgbd_slam.cpp:30-60: the parameters are checked, the
    depth operations convert pixels (depth_map_transformation.cpp, [init_matrices]) and the
    keypoint search makes its windows *)
Definition construction : list call := [Params PConstruct; Use To_camera; Use Search_windows].
End Use.
Arguments call T : clear implicits.
Arguments memory T : clear implicits.
