(** Vocabulary of the properties C42 to C44 and C64. *)
From Coq Require Import Reals.
From Verif Require Import AssociationModel.
From Flocq Require Import IEEE754.BinarySingleNaN.

(** the time, in seconds, that a double is *)
Definition seconds (t : dbl) : R := B2R t.
(** a time stamp of a dataset: finite and positive *)
Definition time_stamp (t : dbl) : Prop := is_finite t = true /\ (0 < seconds t)%R.
(** the content of a [std::map] keyed by time stamps *)
Definition time_map {A} (m : list (dbl * A)) : Prop :=
  (forall e, In e m -> time_stamp (fst e)) /\ StronglySorted (fun a b => (seconds (fst a) < seconds (fst b))%R) m.

(** what [std::sort] may do with the candidate pairs *)
Definition sorted_candidates {Path} (rgbs depths : list (dbl * Path)) (order : list (dbl * dbl)) : Prop :=
  Permutation (candidates rgbs depths) order /\
  StronglySorted (fun a b => dlt (score (fst b) (snd b)) (score (fst a) (snd a)) = false) order.

(** depth images used in a list of frames *)
Definition depths_of {Path} (frames : list (data Path)) : list (dbl * Path) :=
  flat_map (fun f => match d_depth f with Some d => [d] | None => [] end) frames.

(** frames whose RGB images and depth images are in opposite orders *)
Definition crossing {Path} (a b : data Path) : Prop :=
  exists x y, d_depth a = Some x /\ d_depth b = Some y /\
    (seconds (fst (d_rgb a)) < seconds (fst (d_rgb b)))%R /\ (seconds (fst y) < seconds (fst x))%R.
