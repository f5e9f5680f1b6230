(** What is expected of the search of new keypoints. *)
From Verif Require Import DetectionModel DetectionProps MaskModel.
From Coq Require Import Qabs.
Local Open Scope Z_scope.

Definition square_distance (a b : Z * Z) : Z := (fst a - fst b) * (fst a - fst b) + (snd a - snd b) * (snd a - snd b).
(** A drawn disc contains the pixels at [inner] of its center, and no pixel farther than [outer]. *)
Record disc_laws (disc : Z * Z -> Z -> Z -> Z -> bool) (radius inner outer : Z) : Prop := {
  disc_inner : forall c x y, square_distance c (x, y) <= inner * inner -> disc c radius x y = true;
  disc_outer : forall c x y, disc c radius x y = true -> square_distance c (x, y) <= outer * outer }.
(** The refinement of OpenCV moves a point by at most its window in each direction, or not at
    all; the description keeps some of the points. *)
Definition refines (refine : list (Z * Z) -> list pt) : Prop := forall l p, In p (refine l) ->
  exists q, In q l /\ (Qabs (fst p - inject_Z (fst q)) <= 3)%Q /\ (Qabs (snd p - inject_Z (snd q)) <= 3)%Q.
Definition keeps (describe : list pt -> list pt) : Prop := forall l p, In p (describe l) -> In p l.
(** An image of the size of the parameters, in which all the workers finish, with corners in
    their windows *)
Record usable (width height : Z) (f : picture) : Prop := {
  us_size : pi_cols f = width /\ pi_rows f = height;
  us_schedule : complete (pi_schedule f);
  us_corners : forall i, (i < 9)%nat -> detector_contract width height i (pi_corners f i);
  us_refine : refines (pi_refine f);
  us_describe : keeps (pi_describe f) }.
(** the pixel on which a tracked point is *)
Definition pixel_of (t : pt) : Z * Z := (cv_round (fst t), cv_round (snd t)).
