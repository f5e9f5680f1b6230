(** What is expected of the uses of the camera parameters. *)
From Verif Require Import ParametersModel ParametersProps CameraUseModel.
Local Open Scope Z_scope.

(** The camera loaded last by the calls on the parameters (the sizes are unsigned integers) *)
Definition params_of {T} (cs : list (call T)) : list (pcall T) :=
  flat_map (fun c => match c with Params p => [p] | Use _ => [] end) cs.
Definition camera_loaded {T} (cs : list (call T)) : camera :=
  match source_of (params_of cs) with
  | Nothing => mkCamera 0 0 (Some 0%Q) (Some 0%Q) (Some 0%Q) (Some 0%Q)
  | Defaults => mkCamera 640 480 (Some 550%Q) (Some 550%Q) (Some 320%Q) (Some 240%Q)
  | FromFile f => let c := fi_1 f in mkCamera (c_w c mod 2 ^ 32) (c_h c mod 2 ^ 32) (c_fx c) (c_fy c) (c_cx c) (c_cy c)
  end.
(** What a place should work with for a camera *)
Definition wanted (s : site) (c : camera) : value :=
  match s with
  | To_camera | To_screen => Matrix (c_fx c, c_fy c, c_cx c, c_cy c)
  | In_screen_2d | In_screen => Size (c_w c) (c_h c)
  | Search_windows => Size (c_w c / 3) (c_h c / 3)
  | Flow_window => Size (c_w c / 12) (c_h c / 9)
  | Screen_polygon => Size ((c_w c - 1) mod 2 ^ 32) ((c_h c - 1) mod 2 ^ 32)
  | Screen_covariance => Focal (c_fx c) (c_fy c)
  | Camera_covariance => Lens (c_fx c) (c_fy c) (c_cx c) (c_cy c)
  end.
(** The calls that settle for ever what a place works with: its own use, and for the matrix of
    the camera any call that needs it *)
Definition settles {T} (s : site) (c : call T) : Prop :=
  match s with
  | To_camera | To_screen => c = Use To_camera \/ c = Use To_screen \/ c = Params PIntrinsics1
  | _ => c = Use s
  end.
(** the uses among the calls *)
Definition uses_of {T} (cs : list (call T)) : list site :=
  flat_map (fun c => match c with Params _ => [] | Use s => [s] end) cs.
