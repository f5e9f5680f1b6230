(** What the lines and segments are expected to satisfy. *)
From Verif Require Export LineModel GeometrySpec InverseDepthSpec.
From Coq Require Import List Reals.
Import ListNotations.
From Verif Require Import Vec3.
Local Open Scope R_scope.

(** The points of the line an object stands for. *)
Definition points_of (l : iline) (x : vec) : Prop :=
  match l with Seg s e => on_line s (vsub e s) x | Dir s n => on_line s n x end.
(** The direction of a [Line] object has length 1, or 0. *)
Definition regular (l : iline) : Prop := match l with Seg _ _ => True | Dir _ n => is_unit n \/ n = v0 end.
(** [q] is the point of the line nearest to [p]. *)
Definition nearest (l : iline) (p q : vec) : Prop := points_of l q /\ forall x, points_of l x -> dist p q <= dist p x.
(** A change that gives no direction, or one of length 1. *)
Definition regular_change (c : change) : Prop :=
  match c with SetNormal n | SetPointAndNormal _ n => is_unit n | _ => True end.
(** The points common to the segments from [a] to [b] and from [c] to [d]. *)
Definition common (a b c d p : vec) : Prop := on_segment a b p /\ on_segment c d p.
(** A library that gives a common point exactly when there is one. *)
Definition lawful (crossings : vec -> vec -> vec -> vec -> option (list vec)) : Prop :=
  forall a b c d,
  match crossings a b c d with
  | Some l => (forall p, In p l -> common a b c d p) /\ ((exists p, common a b c d p) -> l <> [])
  | None => ~ exists p, common a b c d p
  end.
(** At less than 100 units of the start of the line, in its direction. *)
Definition ahead (l : iline) (p : vec) : Prop := exists t, 0 <= t <= 100 /\ p = vadd (start_point l) (vscal t (compute_normal l)).
