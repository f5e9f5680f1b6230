(** Model of the pose optimisation: classification of the matches, random
    subsets, the parallel RANSAC loop, and the functions around them.
    Source: /repo/src/pose_optimization/pose_optimization.cpp, ransac.hpp, and
    the scores and part counts of /repo/src/map_management/map_features/*.cpp.
    Oracles: the inlier test of a match, the Levenberg Marquardt minimisation, the
    shuffles. Scores are binary64 numbers. Not modelled: timing statistics.
    Functions return [None] when the program is ended by [std::terminate]: all of
    them are [noexcept]. *)
From Coq Require Export Permutation Arith Lia.
From Verif Require Export DoubleModel.

(** matches_containers.hpp:18-23 *)
Inductive fkind := Point2d | Point | Plane.

(** [1.0 / minimum...ForOptimization], map_point.cpp:28-32, map_point2d.cpp:27-31,
    map_primitive.cpp:27-31, parameters.hpp (5, 5 and 3) *)
Definition kind_score (k : fkind) : dbl :=
  match k with
  | Point2d => ddiv done (d_of_Z 5)
  | Point => ddiv done (d_of_Z 5)
  | Plane => ddiv done (d_of_Z 3)
  end.
(** [get_feature_part_count], map_point.cpp:26, map_point2d.cpp:25, map_primitive.cpp:25 *)
Definition kind_parts (k : fkind) : nat :=
  match k with Point2d => 2 | Point => 2 | Plane => 3 end.

(** [double_equal(a, b, 0.1)], distance_utils.cpp:11 *)
Definition close_to (a b : dbl) : bool := dle (dabs (dsub a b)) (ddiv done (d_of_Z 10)).

Section PoseOpt.
(** matches, poses *)
Context {F P : Type}.
Variable kind : F -> fkind.
Definition score (f : F) : dbl := kind_score (kind f).

(** [get_feature_set_optimization_score], pose_optimization.cpp:77-85 *)
Definition set_score (l : list F) : dbl := fold_left (fun s f => dadd s (score f)) l dzero.

(** [is_inlier] of a match for a pose; [None]: it throws. It is [noexcept]
    (matches_containers.hpp:146), so that this ends the program: the handler of
    pose_optimization.cpp:53-57 is never reached. *)
Variable inlier : P -> F -> option bool.

(** [get_features_inliers_outliers], pose_optimization.cpp:33-72 *)
Fixpoint classify_loop (p : P) (l : list F) (ins outs : list F) (s : dbl) : option ((list F * list F) * dbl) :=
  match l with
  | [] => Some ((ins, outs), s)
  | f :: l' =>
    match inlier p f with
    | None => None
    | Some true => classify_loop p l' (ins ++ [f]) outs (dadd s (score f))
    | Some false => classify_loop p l' ins (outs ++ [f]) s
    end
  end.
Definition classify (p : P) (l : list F) : option ((list F * list F) * dbl) := classify_loop p l [] [] dzero.

(** [ransac::get_random_subset_with_score(l, 1.0)], ransac.hpp:78-106, on the shuffled
    container; elements are inserted at the beginning. [None]: throws. *)
Fixpoint draw (cumulated : dbl) (out l : list F) : option (list F) :=
  match l with
  | [] => None
  | f :: l' =>
    let c := dadd cumulated (score f) in
    let out' := f :: out in
    if dle done c then Some out' else draw c out' l'
  end.
(** [get_random_subset], pose_optimization.cpp:90-105 *)
Definition random_subset (shuffled : list F) : option (list F) :=
  match draw dzero [] shuffled with
  | None => None
  | Some s => if dlt (set_score s) done then None else Some s
  end.
(** [ransac::get_random_subset(l, n)], ransac.hpp:21-42 *)
Definition random_subset_n (shuffled : list F) (n : nat) : option (list F) :=
  if Nat.ltb (length shuffled) n then None else Some (rev (firstn n shuffled)).

(** [compute_optimized_global_pose], pose_optimization.cpp:302-359. [finite p]: the
    coefficients of the pose are finite numbers; [lm]: result of the minimisation
    when it converges to finite numbers. The number of residuals is compared
    with the number of columns of the coefficients, which is one. *)
Variable finite : P -> bool.
Variable lm : P -> list F -> option P.
Definition parts (l : list F) : nat := fold_left (fun n f => n + kind_parts (kind f)) l 0.
Definition coefficient_columns : nat := 1.
Definition global_pose (p : P) (l : list F) : option P :=
  if negb (finite p) then None
  else if Nat.ltb 0 coefficient_columns && Nat.leb (parts l) coefficient_columns then None
  else if dlt (set_score l) done then None
  else lm p l.

(** ** [compute_pose_with_ransac], pose_optimization.cpp:107-262 *)

(** a candidate: pose, inliers and outliers, inlier score *)
Record candidate := mkCand { c_pose : P; c_in : list F; c_out : list F; c_score : dbl }.

Variable current : P.
Variable matched : list F.
(** shuffle of iteration [i] *)
Variable shuffled : nat -> list F.

(** computation of iteration [i] before it looks at shared data, 168-205:
    [None]: the program ends; [Some None]: the iteration returns early *)
Definition evaluate (i : nat) : option (option candidate) :=
  match random_subset (shuffled i) with
  | None => None
  | Some subset =>
    match global_pose current subset with
    | None => Some None
    | Some p =>
      match classify p matched with
      | None => None
      | Some ((ins, outs), s) => Some (if dlt s done then None else Some (mkCand p ins outs s))
      end
    end
  end.

(** Progress of an iteration. Reads of shared data outside of the lock and writes
    are separate steps (a read gives the last value written: that these races are
    undefined in C++ is not modelled). *)
Inductive ist :=
| IStart
| IHave (c : candidate)      (* reads the best score: greater? *)
| IHave2 (c : candidate)     (* reads the best score again: close? *)
| ICount (c : candidate)     (* reads the number of inliers *)
| IWant (c : candidate)      (* waits for the lock *)
| IHold0 (c : candidate)     (* holds the lock *)
| IHold1 (c : candidate)
| IHold2 (c : candidate)
| IHold3 (c : candidate)
| IHold4
| ITail                      (* reads the number of inliers *)
| IStop
| IDone.

(** shared data, 143-148, and the progress of each iteration *)
Record rstate := mkR {
  r_max : dbl;
  r_pose : P;
  r_in : list F;
  r_out : list F;
  r_quit : bool;
  r_lock : option nat;
  r_it : nat -> ist;
  r_dead : bool
}.
Definition r_init : rstate := mkR done current [] [] false None (fun _ => IStart) false.

Definition upd (f : nat -> ist) (i : nat) (x : ist) : nat -> ist := fun j => if Nat.eqb j i then x else f j.
Definition goto (i : nat) (x : ist) (s : rstate) : rstate :=
  mkR (r_max s) (r_pose s) (r_in s) (r_out s) (r_quit s) (r_lock s) (upd (r_it s) i x) (r_dead s).

(** [inliersToStop], 140-141 *)
Variable stop : nat.
(** [minIterations], 227 *)
Definition min_iterations : nat := 3.

(** one step of iteration [i], 151-233 *)
Definition r_step (i : nat) (s : rstate) : rstate :=
  if r_dead s then s
  else match r_it s i with
  | IStart =>
    if r_quit s then goto i IDone s
    else match evaluate i with
    | None => mkR (r_max s) (r_pose s) (r_in s) (r_out s) (r_quit s) (r_lock s) (r_it s) true
    | Some None => goto i IDone s
    | Some (Some c) => goto i (IHave c) s
    end
  | IHave c => if dlt (r_max s) (c_score c) then goto i (IWant c) s else goto i (IHave2 c) s
  | IHave2 c => if close_to (c_score c) (r_max s) then goto i (ICount c) s else goto i ITail s
  | ICount c => if Nat.ltb (length (r_in s)) (length (c_in c)) then goto i (IWant c) s else goto i ITail s
  | IWant c =>
    match r_lock s with
    | Some _ => s
    | None => mkR (r_max s) (r_pose s) (r_in s) (r_out s) (r_quit s) (Some i) (upd (r_it s) i (IHold0 c)) (r_dead s)
    end
  | IHold0 c => mkR (c_score c) (r_pose s) (r_in s) (r_out s) (r_quit s) (r_lock s) (upd (r_it s) i (IHold1 c)) (r_dead s)
  | IHold1 c => mkR (r_max s) (c_pose c) (r_in s) (r_out s) (r_quit s) (r_lock s) (upd (r_it s) i (IHold2 c)) (r_dead s)
  | IHold2 c => mkR (r_max s) (r_pose s) (c_in c) (r_out s) (r_quit s) (r_lock s) (upd (r_it s) i (IHold3 c)) (r_dead s)
  | IHold3 c => mkR (r_max s) (r_pose s) (r_in s) (c_out c) (r_quit s) (r_lock s) (upd (r_it s) i IHold4) (r_dead s)
  | IHold4 => mkR (r_max s) (r_pose s) (r_in s) (r_out s) (r_quit s) None (upd (r_it s) i ITail) (r_dead s)
  | ITail => if Nat.leb min_iterations i && Nat.ltb stop (length (r_in s)) then goto i IStop s else goto i IDone s
  | IStop => mkR (r_max s) (r_pose s) (r_in s) (r_out s) true (r_lock s) (upd (r_it s) i IDone) (r_dead s)
  | IDone => s
  end.
Definition r_run (schedule : list nat) (s : rstate) : rstate := fold_left (fun s i => r_step i s) schedule s.

(** [maximumIterations], 127-130 *)
Variable iterations : nat.
Definition is_done (x : ist) : bool := match x with IDone => true | _ => false end.
Definition all_done (s : rstate) : bool := forallb (fun i => is_done (r_it s i)) (seq 0 iterations).

(** What the caller gets: returned value, final pose, match sets. *)
Record rresult := mkRes { rr_ok : bool; rr_pose : P; rr_in : list F; rr_out : list F }.
Inductive rend := REnded (r : rresult) | RTerminated | RUnfinished.

(** [pose0]: value of the final pose given by the caller *)
Definition ransac (pose0 : P) (schedule : list nat) : rend :=
  if dlt (set_score matched) done then REnded (mkRes false pose0 [] [])
  else
    let s := r_run schedule r_init in
    if r_dead s then RTerminated
    else if negb (all_done s) then RUnfinished
    else if dlt (set_score (r_in s)) done then REnded (mkRes false pose0 [] [])
    else match global_pose (r_pose s) (r_in s) with
    | Some p => REnded (mkRes true p (r_in s) (r_out s))
    | None => REnded (mkRes false pose0 [] [])
    end.

(** [compute_optimized_pose], pose_optimization.cpp:264-300. [valid]: validity of a
    match; [variance]: result of [compute_pose_variance]; [pose0], [in0], [out0]:
    values given by the caller. *)
Variable valid : F -> bool.
Variable variance : P -> list F -> bool.
Definition optimized_pose (pose0 : P) (in0 out0 : list F) (schedule : list nat) : rend :=
  if negb (forallb valid matched) then REnded (mkRes false pose0 in0 out0)
  else match ransac pose0 schedule with
  | REnded r => if rr_ok r then REnded (mkRes (variance (rr_pose r) (rr_in r)) (rr_pose r) (rr_in r) (rr_out r))
                else REnded r
  | e => e
  end.
End PoseOpt.
Arguments candidate F P : clear implicits.
Arguments rstate F P : clear implicits.
Arguments ist F P : clear implicits.
Arguments rresult F P : clear implicits.
Arguments rend F P : clear implicits.
