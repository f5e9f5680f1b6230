(** What the map should know: values, without any sharing. *)
From Coq Require Import List NArith Bool.
From Verif Require Import DescriptorModel.
Import ListNotations.

Section Spec.
Context {position keypoint descriptor : Type}.
Variable measure : position -> keypoint.
Notation frame := (frame position descriptor).

(** the keypoints of a frame: the detected ones with their descriptors, then the followed ones without *)
Definition expected_keypoints (f : frame) : list (keypoint * option descriptor) :=
  (if detection f && negb (match found f with [] => true | _ => false end)
   then map (fun pd => (measure (fst pd), Some (snd pd))) (extract f (found f)) else []) ++
  map (fun p => (measure p, None)) (points (flow f)).

(** the keypoints of the last frame and the descriptors of the features *)
Record ideal := mkIdeal { known : list (keypoint * option descriptor); values : list descriptor }.
Definition ideal_step (s : ideal) (a : action position descriptor) : option ideal :=
  match a with
  | NewFrame f => Some (mkIdeal (expected_keypoints f) (values s))
  | Detected index =>
      match nth_error (known s) (N.to_nat index) with
      | None => None
      | Some (_, None) => Some s
      | Some (_, Some d) => Some (mkIdeal (known s) (values s ++ [d]))
      end
  | Matched i index success =>
      match nth_error (values s) i, nth_error (known s) (N.to_nat index) with
      | Some _, Some (_, d) =>
          Some (match success, d with
                | true, Some v => mkIdeal (known s) (firstn i (values s) ++ v :: skipn (S i) (values s))
                | _, _ => s
                end)
      | _, _ => None
      end
  | Copied i => match nth_error (values s) i with None => None | Some d => Some (mkIdeal (known s) (values s ++ [d])) end
  | Removed i => match nth_error (values s) i with None => None | Some _ => Some (mkIdeal (known s) (firstn i (values s) ++ skipn (S i) (values s))) end
  end.
Fixpoint ideal_run (s : ideal) (l : list (action position descriptor)) : option ideal :=
  match l with [] => Some s | a :: l' => match ideal_step s a with None => None | Some s' => ideal_run s' l' end end.
(** indexes are numbers of 32 bits *)
Definition small (a : action position descriptor) : Prop :=
  match a with Detected i | Matched _ i _ => (i < 2 ^ 32)%N | _ => True end.
End Spec.
Arguments ideal : clear implicits.
(** the pairs that a container should hold after some calls *)
Fixpoint held {position} (l : list (container_call position)) (before : list (N * position)) : list (N * position) :=
  match l with
  | [] => before
  | Clear :: l' => held l' []
  | Reserve _ :: l' => held l' before
  | Add id p :: l' => held l' (before ++ [(id, p)])
  end.
