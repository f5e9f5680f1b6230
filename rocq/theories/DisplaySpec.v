(** What the debug image is expected to show. *)
From Verif Require Export DisplayModel VisibilitySpec.
From Coq Require Import List ZArith Reals.
Import ListNotations.
From Verif Require Import Vec3.
Local Open Scope R_scope.

(** The integer pixel of a coordinate: its whole part, when an [int] holds it. *)
Definition pixel_of (u : R) (z : Z) : Prop :=
  (- 2147483648 <= z <= 2147483647)%Z /\
  ((0 <= u /\ IZR z <= u < IZR z + 1) \/ (u < 0 /\ IZR z - 1 < u <= IZR z)).
(** The line drawn between two points in front of the camera. *)
Definition edge_line (fx fy cx cy : R) (c : color) (a b : vec) (s : stroke) : Prop :=
  exists ua va ub vb xa ya xb yb, seen_at fx fy cx cy a ua va /\ seen_at fx fy cx cy b ub vb /\
    pixel_of ua xa /\ pixel_of va ya /\ pixel_of ub xb /\ pixel_of vb yb /\ s = Line xa ya xb yb c 2.
(** The lines between the successive points in front of the camera, given in camera space. *)
Inductive edges_drawn (fx fy cx cy : R) (c : color) : list vec -> list stroke -> Prop :=
| edges_none : edges_drawn fx fy cx cy c [] []
| edges_one a : edges_drawn fx fy cx cy c [a] []
| edges_line a b points s l : 0 < vz a -> 0 < vz b -> edge_line fx fy cx cy c a b s ->
    edges_drawn fx fy cx cy c (b :: points) l -> edges_drawn fx fy cx cy c (a :: b :: points) (s :: l)
| edges_hidden a b points l : ~ (0 < vz a /\ 0 < vz b) ->
    edges_drawn fx fy cx cy c (b :: points) l -> edges_drawn fx fy cx cy c (a :: b :: points) l.
(** The features of the image and their colours: the staged ones when asked, orange or red, then
    the others with their own colour, for the maps that are used. *)
Definition shown (with_staged : bool) (maps : list shown_map) : list (item * color) :=
  flat_map (fun m => if s_activated m
                     then (if with_staged then map (fun f => (f, if f_matched f then (0, 200, 255)%Z else (0, 0, 255)%Z)) (s_staged m) else [])
                          ++ map (fun f => (f, f_color f)) (s_local m)
                     else []) maps.
(** A feature that is a point, with or without depth. *)
Definition is_point (f : item) : Prop := match f_shape f with PlaneShape _ => False | _ => True end.
(** The size of an image. *)
Definition image_size (n : Z) : Prop := (2 <= n <= 2147483647)%Z.
