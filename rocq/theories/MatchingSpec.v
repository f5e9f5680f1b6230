(** What is expected of the matches of a feature. *)
From Verif Require Import MatchingModel.

(** the cosine of the angle between the normals of two planes *)
Definition cosine_between (a b : plane_view) : Q :=
  (fst (fst (pv_normal a)) * fst (fst (pv_normal b)) + snd (fst (pv_normal a)) * snd (fst (pv_normal b)) +
   snd (pv_normal a) * snd (pv_normal b))%Q.
(** a detected plane which can be matched with a projected one: not matched yet, distances to
    the origin less than 100 mm apart, normals within the angle of the given cosine (the
    orientation of the normal does not matter), and a great enough part of it is common *)
Definition can_match (cosine least : Q) (projected : plane_view) (inter : nat -> Q)
    (detected : list plane_view) (flags : list bool) (i : nat) : Prop :=
  exists plane, nth_error detected i = Some plane /\ nth_error flags i = Some false /\
    (- (100) < pv_d plane - pv_d projected)%Q /\ (pv_d plane - pv_d projected < 100)%Q /\
    (cosine < cosine_between plane projected \/ cosine_between plane projected < - cosine)%Q /\
    (least * pv_area plane <= inter i)%Q.

(** the first of those with the greatest common area *)
Definition best_match (candidate : nat -> Prop) (inter : nat -> Q) (i : nat) : Prop :=
  candidate i /\ (0 < inter i)%Q /\
  forall j, candidate j -> j <> i -> (inter j < inter i)%Q \/ (inter j == inter i)%Q /\ (i < j)%nat.

(** a detected keypoint which can be matched with a projected point: not matched yet and at
    most 30 pixels away *)
Definition near_keypoint (detected : list (Q * Q)) (x y : Q) (flags : list bool) (i : nat) : Prop :=
  exists px py, nth_error detected i = Some (px, py) /\ nth_error flags i = Some false /\
    ((px - x) * (px - x) + (py - y) * (py - y) <= 900)%Q.

(** a descriptor distance clearly less than the others: less than 0.7 times each of them *)
Definition clearly_nearest (candidate : nat -> Prop) (dist : nat -> N) (i : nat) : Prop :=
  candidate i /\ forall j, candidate j -> j <> i -> (10 * dist i < 7 * dist j)%N.
