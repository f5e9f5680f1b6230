(** Model of the association of the images of a TUM dataset.
    Source: /repo/examples/TUM_parser.hpp.
    Time stamps and scores are IEEE doubles. A [std::map] is the list of its elements in
    the order of their keys. Oracle: the order chosen by [std::sort] among equal scores (the
    theorems take any sorted permutation). Not modelled: reading the files, the messages. *)
From Coq Require Export List Bool Permutation Sorted.
From Verif Require Export DoubleModel.
From Flocq Require IEEE754.BinarySingleNaN.

Section Association.
(** paths, ground truth poses *)
Context {Path Pose : Type}.
Notation image := (dbl * Path)%type.

(** [maxDifference], [depthTimeOffset], TUM_parser.hpp:160-161; 0.05, line 292 *)
Definition max_difference : dbl := BinarySingleNaN.binary_normalize 53 1024 dprec demax BinarySingleNaN.mode_NE 5404319552844595 (-55) false.
Definition depth_time_offset : dbl := dzero.
Definition max_ground_truth_difference : dbl := BinarySingleNaN.binary_normalize 53 1024 dprec demax BinarySingleNaN.mode_NE 7205759403792794 (-57) false.

(** [t.score], TUM_parser.hpp:182 *)
Definition score (rgb depth : dbl) : dbl := dabs (dsub rgb (dadd depth depth_time_offset)).

(** inner loop with its early exit, TUM_parser.hpp:177-193 *)
Fixpoint scan (rgb : dbl) (ready : bool) (depths : list image) : list (dbl * dbl) :=
  match depths with
  | [] => []
  | (depth, _) :: rest =>
    if dlt (score rgb depth) max_difference then (rgb, depth) :: scan rgb true rest
    else if ready then [] else scan rgb ready rest
  end.
(** [timeStampAssociation] before it is sorted, TUM_parser.hpp:171-194 *)
Definition candidates (rgbs depths : list image) : list (dbl * dbl) :=
  flat_map (fun rgb => scan (fst rgb) false depths) rgbs.

(** [std::map<double, ...>]: equivalence of keys, [find], [erase] *)
Definition same_key (a b : dbl) : bool := negb (dlt a b) && negb (dlt b a).
Definition find_key {A} (key : dbl) (m : list (dbl * A)) : option (dbl * A) := find (fun e => same_key (fst e) key) m.
Definition erase_key {A} (key : dbl) (m : list (dbl * A)) : list (dbl * A) := filter (fun e => negb (same_key (fst e) key)) m.

(** [Data]: here the RGB image is always valid; the depth image is not when absent *)
Record data := mkData { d_rgb : image; d_depth : option image }.

(** one step of the loop on the sorted associations, TUM_parser.hpp:206-226 *)
Definition pair_step (s : list image * list image * list data) (p : dbl * dbl) : list image * list image * list data :=
  let '(rgbs, depths, final) := s in
  match find_key (fst p) rgbs, find_key (snd p) depths with
  | Some (_, rgb_path), Some (_, depth_path) =>
    (erase_key (fst p) rgbs, erase_key (snd p) depths,
     final ++ [mkData (fst p, rgb_path) (Some (snd p, depth_path))])
  | _, _ => s
  end.
(** [finalSorted] before it is sorted: the pairs, then the RGB images left
    (TUM_parser.hpp:228-242; [USE_RGB_WITHOUT_DEPTH] is defined, [USE_DEPTH_WITHOUT_RGB] is not) *)
Definition associate (order : list (dbl * dbl)) (rgbs depths : list image) : list data :=
  let '(rgbs', _, final) := fold_left pair_step order (rgbs, depths, []) in
  final ++ map (fun e => mkData e None) rgbs'.

(** the comparison given to the second [std::sort], TUM_parser.hpp:260-269 *)
Definition less (a b : data) : bool :=
  dlt (fst (d_rgb a)) (fst (d_rgb b)) ||
  match d_depth a, d_depth b with
  | Some x, Some y => dlt (fst x) (fst y)
  | _, _ => false
  end.

(** ** Ground truth *)
Notation truth := (dbl * Pose)%type.
Definition dmax : dbl := BinarySingleNaN.Bmax_float.
Definition truth_score (time : dbl) (g : truth) : dbl := dabs (dsub time (fst g)).
(** the loop on the ground truth, TUM_parser.hpp:283-304 *)
Fixpoint closest (time : dbl) (ready : bool) (best : option truth) (best_score : dbl) (truths : list truth) : option truth * dbl :=
  match truths with
  | [] => (best, best_score)
  | g :: rest =>
    let s := truth_score time g in
    if dlt s max_ground_truth_difference then
      if dlt s best_score then closest time true (Some g) s rest else closest time true best best_score rest
    else if ready then (best, best_score) else closest time ready best best_score rest
  end.
(** TUM_parser.hpp:278-320 *)
Fixpoint attach (truths : list truth) (frames : list data) : list (option truth) :=
  match frames with
  | [] => []
  | f :: rest =>
    match closest (fst (d_rgb f)) false None dmax truths with
    | (Some g, s) => if dlt s dmax then Some g :: attach (erase_key (fst g) truths) rest else None :: attach truths rest
    | (None, _) => None :: attach truths rest
    end
  end.
End Association.
Arguments data : clear implicits.
