(** What is expected of the lines found at several scales. *)
From Verif Require Export OctaveModel.
From Coq Require Import ZArith QArith List.
Import ListNotations.

(** A position in an image of a size. *)
Definition in_image (w h : Z) (x y : Q) : Prop := (0 <= x)%Q /\ (x < inject_Z w)%Q /\ (0 <= y)%Q /\ (y < inject_Z h)%Q.
Definition line_in_image (w h : Z) (l : line) : Prop := in_image w h (x1 l) (y1 l) /\ in_image w h (x2 l) (y2 l).
(** The pixel of a position is white. *)
Definition on_white (m : mask) (x y : Q) : bool := m_white m (Qround.Qfloor y) (Qround.Qfloor x).
(** The lines of which an extremity is white. *)
Definition desired (m : mask) (k : key_line) : bool :=
  on_white m (x1 (start_end k)) (y1 (start_end k)) || on_white m (x2 (start_end k)) (y2 (start_end k)).
(** The size, in a direction, of the image of an octave. *)
Definition octave_size (o : nat) (scale n : Z) : Z := (n / scale ^ Z.of_nat o)%Z.
(** A coordinate, brought to the border of the image when it is outside of it. *)
Definition brought (x : Q) (size : Z) (x' : Q) : Prop :=
  ((0 <= x)%Q -> (x < inject_Z size)%Q -> x' = x) /\ ((x < 0)%Q -> (x' == 0)%Q) /\ ((inject_Z size <= x)%Q -> (x' == inject_Z (size - 1))%Q).
(** The key line of a line found in the image of an octave. *)
Definition key_of (scale w h : Z) (found : nat * line) (k : key_line) : Prop :=
  let (o, l) := found in
  let s := inject_Z (scale ^ Z.of_nat o) in
  let i := in_octave k in
  let e := start_end k in
  octave k = o /\
  (brought (x1 l) (octave_size o scale w) (x1 i) /\ brought (y1 l) (octave_size o scale h) (y1 i) /\
   brought (x2 l) (octave_size o scale w) (x2 i) /\ brought (y2 l) (octave_size o scale h) (y2 i)) /\
  ((x1 e == s * x1 i)%Q /\ (y1 e == s * y1 i)%Q /\ (x2 e == s * x2 i)%Q /\ (y2 e == s * y2 i)%Q) /\
  ((2 * fst (middle k) == x1 e + x2 e)%Q /\ (2 * snd (middle k) == y1 e + y2 e)%Q) /\
  (kl_size k == (x2 e - x1 e) * (y2 e - y1 e))%Q.
(** The lines found in all the octaves, the finest one first. *)
Definition found (detector : nat -> Z -> Z -> list line) (octaves : nat) (scale w h : Z) : list (nat * line) :=
  flat_map (fun o => map (pair o) (detector o (octave_size o scale w) (octave_size o scale h))) (seq 0 octaves).
