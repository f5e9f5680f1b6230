(** What is expected of the drawing and of the comparison of segments. *)
From Verif Require Export CompareModel.
From Coq Require Import List ZArith Bool Arith.
Import ListNotations.

Section Meaning.
  Context {segment : Type}.
  Variable drawn : nat * nat -> segment -> nat -> bool.
  (** A pixel is on one of the segments. *)
  Definition on (size : nat * nat) (lines : list segment) (i : nat) : bool := existsb (fun l => drawn size l i) lines.
  (** The number of pixels on the segments of one list and not on those of the other. *)
  Definition distance (size : nat * nat) (a b : list segment) : nat :=
    length (filter (fun i => xorb (on size a i) (on size b i)) (seq 0 (fst size * snd size))).
  (** An image of the right number of bytes. *)
  Definition full (img : image) : Prop := length (bytes img) = channels img * (fst (i_size img) * snd (i_size img)).
  (** The blue, green and red bytes of a pixel of an image of three channels. *)
  Definition pixel (img : image) (i : nat) : list (option byte) := map (nth_error (bytes img)) [i * 3; i * 3 + 1; i * 3 + 2].
  (** The image a comparison reads its size from. *)
  Definition used_size (size : nat * nat) (img : option image) : nat * nat := match img with Some i => i_size i | None => size end.
End Meaning.
