(** What the statistics are expected to report. *)
From Verif Require Export StatsModel.
From Coq Require Import List ZArith Reals.
Import ListNotations.
Local Open Scope R_scope.

(** A history: the object each frame is given to, and what the stages last. *)
Definition history : Type := list (nat * (stage -> R)).
(** The frames given to the object [i]. *)
Definition frames_of (i : nat) (h : history) : history := filter (fun e => Nat.eqb (fst e) i) h.
(** The time spent in a stage. *)
Definition time_in (s : stage) (h : history) : R := fold_right (fun e t => snd e s + t) 0 h.
(** The sum of the percentages of a report. *)
Definition all_percents (l : list (stage * R * R)) : R := fold_right (fun e t => snd e + t) 0 l.
(** The time spent in all the stages of a frame. *)
Definition time_of_frame (duration : stage -> R) : R := fold_right (fun s t => duration s + t) 0 stages.
(** The lines of a report: for each stage a mean, and the percentage of the mean duration given. *)
Definition reports (mean_frame : R) (mean : stage -> R) (l : list (stage * R * R)) : Prop :=
  l = map (fun s => (s, mean s, if Rle_dec mean_frame 0 then 0 else mean s / mean_frame * 100)) stages.
