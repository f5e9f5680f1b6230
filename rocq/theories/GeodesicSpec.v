(** Vocabulary of the property C102: morphological reconstruction. *)
From Verif Require Import GeodesicModel.
Local Open Scope Z_scope.

(** an image of bytes *)
Definition bytes (f : image) : Prop := forall p, 0 <= f p <= 255.
(** a pixel of a rectangle *)
Definition inside (cols rows : Z) (p : pixel) : Prop := 0 <= fst p < cols /\ 0 <= snd p < rows.
Definition agree (cols rows : Z) (f g : image) : Prop := forall p, inside cols rows p -> f p = g p.

(** paths inside the image, by offsets of the structuring element, through pixels that all
    satisfy a condition; [path n q p] goes from [q] to [p] in [n] steps, and each step is
    from a pixel covered by the element centred on the next *)
Inductive path (cols rows : Z) (se : list pixel) (ok : pixel -> Prop) : nat -> pixel -> pixel -> Prop :=
| path_here : forall p, inside cols rows p -> ok p -> path cols rows se ok 0 p p
| path_step : forall n q p r, path cols rows se ok n q p -> inside cols rows r -> ok r ->
    In (fst p - fst r, snd p - snd r) se -> path cols rows se ok (S n) q r.

(** a pixel and its eight neighbours *)
Definition eight : list pixel := [(-1, -1); (-1, 0); (-1, 1); (0, -1); (0, 0); (0, 1); (1, -1); (1, 0); (1, 1)].
