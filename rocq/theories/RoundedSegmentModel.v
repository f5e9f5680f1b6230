(** Model of the statistics of a plane segment with the rounding of the machine.
    Source: /repo/src/features/primitives/plane_segment.cpp:128-150, 170-190 and 205-230,
    types.hpp:84. PlaneSegmentModel has the same functions without rounding.
    The coordinates of the points are [float]s, so that their products are rounded to 24 bits before
    they are added to the sums, which are [double]s (53 bits); all roundings are to nearest even.
    Simplified: overflow is not modelled (the theorems bound the coordinates). *)
From Verif Require Export PlaneSegmentModel.
From Flocq Require Import Core.
Local Open Scope R_scope.

(** rounding of a [float] and of a [double] operation *)
Definition rf (x : R) : R := round radix2 (FLT_exp (-149) 24) ZnearestE x.
Definition rd (x : R) : R := round radix2 (FLT_exp (-1074) 53) ZnearestE x.

(** accumulation of one point, 128-150; [SQR] of a float is a float (types.hpp:84) *)
Definition radd_point (s : sums) (p : vec) : sums :=
  let x := vx p in let y := vy p in let z := vz p in
  if Rlt_dec 0 z then
    mkSums (S (s_n s)) (rd (s_x s + x)) (rd (s_y s + y)) (rd (s_z s + z))
           (rd (s_xx s + rf (x * x))) (rd (s_yy s + rf (y * y))) (rd (s_zz s + rf (z * z)))
           (rd (s_xy s + rf (x * y))) (rd (s_yz s + rf (y * z))) (rd (s_zx s + rf (x * z)))
  else s.
Definition raccumulate (l : list vec) : sums := fold_left radd_point l no_sums.
(** [expand_segment], 170-190 *)
Definition rexpand (a b : sums) : sums :=
  mkSums (s_n a + s_n b) (rd (s_x a + s_x b)) (rd (s_y a + s_y b)) (rd (s_z a + s_z b))
         (rd (s_xx a + s_xx b)) (rd (s_yy a + s_yy b)) (rd (s_zz a + s_zz b))
         (rd (s_xy a + s_xy b)) (rd (s_yz a + s_yz b)) (rd (s_zx a + s_zx b)).
(** [get_point_cloud_Huygen_covariance], 205-230 *)
Definition rscatter (s : sums) : mat :=
  let one := rd (1 / INR (s_n s)) in
  let entry sab sa sb := rd (sab - rd (rd (sa * sb) * one)) in
  let xx := Rmax 0 (entry (s_xx s) (s_x s) (s_x s)) in
  let yy := Rmax 0 (entry (s_yy s) (s_y s) (s_y s)) in
  let zz := Rmax 0 (entry (s_zz s) (s_z s) (s_z s)) in
  let xy := entry (s_xy s) (s_x s) (s_y s) in
  let xz := entry (s_zx s) (s_x s) (s_z s) in
  let yz := entry (s_yz s) (s_y s) (s_z s) in
  mkM3 (mkV xx xy xz) (mkV xy yy yz) (mkV xz yz zz).
