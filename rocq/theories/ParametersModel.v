(** Model of the camera parameters: a process wide store filled from a file or
    with default values. Source: /repo/src/parameters.{hpp,cpp}, and the use of
    it in the constructor of [RGBD_SLAM], /repo/src/rgbd_slam.cpp:30-40.
    Simplified: YAML parsing (a file is the record of the values read from it),
    infinities; the compile time assertions (parameters.cpp:116-217) concern
    constants only. *)
From Coq Require Export List ZArith NArith QArith Bool Lia.
Export ListNotations.
Local Open Scope Z_scope.

(** a floating point number read from a file: [None] is not-a-number *)
Definition real := option Q.
(** [x < 0]: false for not-a-number *)
Definition lt0 (x : real) : bool := match x with Some q => negb (Qle_bool 0 q) | None => false end.

(** the values of one camera: image size, focal lengths, center *)
Record camera := mkCamera { c_w : Z; c_h : Z; c_fx : real; c_fy : real; c_cx : real; c_cy : real }.

Section Params.
(** pose of the second camera relatively to the first one *)
Context {T : Type}.

(** What is written in a configuration file; sizes are 32 bit signed integers. *)
Record file := mkFile { fi_1 : camera; fi_2 : camera; fi_t : T }.

(** static members, parameters.hpp:171-184, and the two function local static
    matrices, parameters.hpp:142-148 and 159-164 *)
Record store := mkStore {
  st_valid : bool;
  st_1 : camera;
  st_2 : camera;
  st_t : T;
  st_k1 : option (real * real * real * real);
  st_k2 : option (real * real * real * real)
}.

Definition zero : real := Some 0%Q.
Definition camera0 := mkCamera 0 0 zero zero zero zero.
Variable t0 : T.
(** static storage is zero initialised; [t0] stands for the zero matrix *)
Definition st_init : store := mkStore false camera0 camera0 t0 None None.

(** a signed number stored in an [unsigned int] *)
Definition to_uint (x : Z) : Z := x mod 2 ^ 32.
Definition stored (c : camera) : camera :=
  mkCamera (to_uint (c_w c)) (to_uint (c_h c)) (c_fx c) (c_fy c) (c_cx c) (c_cy c).

(** [check_parameters_validity], parameters.cpp:76-118: on unsigned sizes *)
Definition camera_ok (c : camera) : bool :=
  negb (c_w c <=? 0) && negb (c_h c <=? 0) && negb (lt0 (c_cx c)) && negb (lt0 (c_cy c)).
Definition check (s : store) : store :=
  mkStore (camera_ok (st_1 s) && camera_ok (st_2 s)) (st_1 s) (st_2 s) (st_t s) (st_k1 s) (st_k2 s).

Variable identity : T.
(** [load_defaut], parameters.cpp:59-74; the validity flag is left as it is *)
Definition default_camera := mkCamera 640 480 (Some 550%Q) (Some 550%Q) (Some 320%Q) (Some 240%Q).
Definition load_default (s : store) : store :=
  mkStore (st_valid s) default_camera default_camera identity (st_k1 s) (st_k2 s).

(** [parse_file], parameters.cpp:10-57; [None]: the file cannot be opened *)
Definition parse_file (f : option file) (s : store) : store * bool :=
  match f with
  | None => (check (load_default s), false)
  | Some f =>
    let s' := check (mkStore (st_valid s) (stored (fi_1 f)) (stored (fi_2 f)) (fi_t f) (st_k1 s) (st_k2 s)) in
    (s', st_valid s')
  end.

(** [get_camera_1_intrinsics], [get_camera_2_intrinsics] *)
Definition matrix_of (c : camera) := (c_fx c, c_fy c, c_cx c, c_cy c).
Definition intrinsics_1 (s : store) : store * (real * real * real * real) :=
  match st_k1 s with
  | Some k => (s, k)
  | None => (mkStore (st_valid s) (st_1 s) (st_2 s) (st_t s) (Some (matrix_of (st_1 s))) (st_k2 s), matrix_of (st_1 s))
  end.
Definition intrinsics_2 (s : store) : store * (real * real * real * real) :=
  match st_k2 s with
  | Some k => (s, k)
  | None => (mkStore (st_valid s) (st_1 s) (st_2 s) (st_t s) (st_k1 s) (Some (matrix_of (st_2 s))), matrix_of (st_2 s))
  end.

(** constructor of [RGBD_SLAM], rgbd_slam.cpp:30-40: [None] is [exit(-1)] *)
Definition construct (s : store) : option store :=
  if st_valid s then Some s
  else
    let s' := load_default s in
    if st_valid s' then Some s' else None.

(** The calls a program can make; the getters of the stored values have no
    effect and are read directly in the state. *)
Inductive pcall :=
| PParse (f : option file)
| PDefault
| PIntrinsics1
| PIntrinsics2
| PConstruct.

(** [None]: the process has ended *)
Definition pexec (c : pcall) (s : store) : option store :=
  match c with
  | PParse f => Some (fst (parse_file f s))
  | PDefault => Some (load_default s)
  | PIntrinsics1 => Some (fst (intrinsics_1 s))
  | PIntrinsics2 => Some (fst (intrinsics_2 s))
  | PConstruct => construct s
  end.
Fixpoint prun (cs : list pcall) (s : store) : option store :=
  match cs with
  | [] => Some s
  | c :: cs' => match pexec c s with Some s' => prun cs' s' | None => None end
  end.
End Params.
Arguments file T : clear implicits.
Arguments store T : clear implicits.
Arguments pcall T : clear implicits.
