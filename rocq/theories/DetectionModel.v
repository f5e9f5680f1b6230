(** Model of the keypoint detection: optical flow, detection windows, parallel
    detection. Source: /repo/src/features/keypoints/keypoint_detection.{hpp,cpp}
    and the two free functions of keypoint_handler.cpp.
    Oracles: optical flow ([cv::calcOpticalFlowPyrLK]), the detectors of each
    window, sub pixel refinement and the descriptor extractor. Positions are
    rational numbers (floats that are not a number do not occur in OpenCV
    results). Not modelled: timing statistics. *)
From Verif Require Export KeypointModel.
From Coq Require Export Permutation.
Local Open Scope Z_scope.

Definition pt : Type := Q * Q.

(** [a < b] on rationals *)
Definition Qltb (a b : Q) : bool := negb (Qle_bool b a).

(** [is_in_border], keypoint_handler.cpp:10-15 *)
Definition in_border (border : Z) (cols rows : Z) (p : pt) : bool :=
  Qle_bool (inject_Z border) (fst p) && Qle_bool (inject_Z border) (snd p) &&
  Qltb (fst p) (inject_Z (cols - border)) && Qltb (snd p) (inject_Z (rows - border)).

(** [std::round]: half way cases away from zero *)
Definition std_round (q : Q) : Z :=
  if Qle_bool 0 q then Qfloor (q + (1 # 2)) else - Qfloor (- q + (1 # 2)).

(** [BORDER_SIZE], keypoint_handler.hpp:12 *)
Definition border_size : Z := 1.

(** [get_depth], keypoint_handler.cpp:17-26: [UB] is a read outside of the image;
    [depth] is the content of the image, row then column *)
Definition get_depth (cols rows : Z) (depth : Z -> Z -> Q) (p : pt) : outcome Q :=
  if in_border border_size cols rows p
  then
    let row := std_round (snd p) in
    let col := std_round (fst p) in
    if (0 <=? row) && (row <? rows) && (0 <=? col) && (col <? cols) then Ret (depth row col) else UB
  else Ret 0%Q.

(** ** Optical flow *)

(** [maxDistance] is [matchSearchRadius_px], keypoint_detection.cpp:174 *)
Definition sq_norm (a b : pt) : Q :=
  ((fst a - fst b) * (fst a - fst b) + (snd a - snd b) * (snd a - snd b))%Q.

(** forward pass, keypoint_detection.cpp:301-318: indices and positions kept.
    [forward] and [status] are read at the same index. *)
Fixpoint flow_forward (cols rows : Z) (i : nat) (forward : list (pt * bool)) : list (nat * pt) :=
  match forward with
  | [] => []
  | (p, ok) :: forward' =>
    if negb ok then flow_forward cols rows (S i) forward'
    else if negb (in_border 0 cols rows p) then flow_forward cols rows (S i) forward'
    else (i, p) :: flow_forward cols rows (S i) forward'
  end.

(** backward pass, keypoint_detection.cpp:340-361 *)
Fixpoint flow_backward (last : list (N * pt)) (forward : list (pt * bool)) (kept : list (nat * pt))
  (backward : list (pt * bool)) : outcome (list (N * pt)) :=
  match backward with
  | [] => Ret []
  | (b, ok) :: backward' =>
    match kept with
    | [] => UB
    | (i, _) :: kept' =>
      if negb ok then flow_backward last forward kept' backward'
      else
        match nth_error last i with
        | None => UB
        | Some (id, p) =>
          if Qltb (inject_Z (matchSearchRadius * matchSearchRadius)) (sq_norm p b)
          then flow_backward last forward kept' backward'
          else
            match nth_error forward i with
            | None => UB
            | Some (fp, _) =>
              let* r := flow_backward last forward kept' backward' in Ret ((id, fp) :: r)
            end
        end
    end
  end.

(** [get_keypoints_from_optical_flow], keypoint_detection.cpp:262-361. [fwd] and
    [bwd]: position and status (equal to 1) of each given point. *)
Definition optical_flow (cols rows : Z) (fwd bwd : list pt -> list (pt * bool)) (last : list (N * pt))
  : outcome (list (N * pt)) :=
  match last with
  | [] => Ret []
  | _ :: _ =>
    let forward := fwd (map snd last) in
    let kept := flow_forward cols rows 0 forward in
    match kept with
    | [] => Ret []
    | _ :: _ => flow_backward last forward kept (bwd (map snd kept))
    end
  end.

(** ** Detection windows *)

(** parameters.hpp:54-56 *)
Definition window_rows : nat := 3.
Definition window_cols : nat := 3.
Definition window_count : nat := 9.
Definition max_points_per_frame : nat := 100.

(** [cv::Rect] *)
Record rect := mkRect { re_x : Z; re_y : Z; re_w : Z; re_h : Z }.

(** constructor, keypoint_detection.cpp:71-83: window [i] *)
Definition window (width height : Z) (i : nat) : rect :=
  let sx := width / Z.of_nat window_cols in
  let sy := height / Z.of_nat window_rows in
  mkRect (Z.of_nat (i mod window_cols) * sx) (Z.of_nat (i / window_cols) * sy) sx sy.

(** conversion of a [cv::Point2f] to a [cv::Point]: [cvRound], half way cases to
    the even number *)
Definition cv_round (q : Q) : Z :=
  let f := Qfloor q in
  match Qcompare (q - inject_Z f) (1 # 2) with
  | Lt => f
  | Gt => f + 1
  | Eq => if Z.even f then f else f + 1
  end.

(** [cv::Rect::contains] *)
Definition contains (r : rect) (p : pt) : bool :=
  let x := cv_round (fst p) in
  let y := cv_round (snd p) in
  (re_x r <=? x) && (x <? re_x r + re_w r) && (re_y r <=? y) && (y <? re_y r + re_h r).

(** window of a point: the first that contains it, keypoint_detection.cpp:136-146 *)
Definition window_of (width height : Z) (p : pt) : option nat :=
  find (fun i => contains (window width height i) p) (seq 0 window_count).

(** [detectionWindowDetectionCount], 16 bit counters, keypoint_detection.cpp:122-146 *)
Definition window_counter (width height : Z) (tracked : list pt) (i : nat) : N :=
  fold_left (fun c p => match window_of width height p with
                        | Some j => if Nat.eqb j i then ((c + 1) mod 2 ^ 16)%N else c
                        | None => c end) tracked 0%N.

(** [maxKeypointToDetectByCell], keypoint_detection.cpp:418-420 *)
Definition max_by_cell : N := N.of_nat (Nat.div max_points_per_frame window_count).

(** A detected keypoint. The detector compiled in ([cv::FastFeatureDetector],
    keypoint_detection.cpp:47-69) gives pixel positions and integer scores. *)
Record cvkp := mkCvkp { k_x : Z; k_y : Z; k_resp : Z }.

(** [cv::KeyPointsFilter::retainBest]: keeps the [n] greatest responses and
    everything equal to the last of them (the order of the result, unspecified
    in OpenCV, is here the one of the argument) *)
Definition rank (k : cvkp) (l : list cvkp) : nat :=
  length (filter (fun k' => k_resp k <? k_resp k') l).
Definition retain_best (n : nat) (l : list cvkp) : list cvkp :=
  if Nat.leb (length l) n then l
  else filter (fun k => Nat.ltb (rank k l) n) l.

(** What one window of an image produces: the detector and, when it finds too few
    points, the more sensitive one (positions relative to the window). *)
Record window_oracle := mkWO { wo_detect : list cvkp; wo_advanced : list cvkp }.

Definition shift (r : rect) (k : cvkp) : cvkp :=
  mkCvkp (k_x k + re_x r) (k_y k + re_y r) (k_resp k).

(** body of the parallel loop, keypoint_detection.cpp:430-466, up to the lock;
    [already] is the counter of the window *)
Definition window_result (r : rect) (already : N) (o : window_oracle) : list cvkp :=
  if N.ltb already max_by_cell
  then
    let wanted := N.to_nat (max_by_cell - already) in
    let found := if Nat.ltb (length (wo_detect o)) wanted then wo_advanced o else wo_detect o in
    map (shift r) (retain_best wanted found)
  else [].

(** ** The parallel loop, keypoint_detection.cpp:424-470: one worker per window,
    any interleaving. A worker computes its keypoints, then takes the lock and
    appends them. *)
Inductive phase := Todo | Computed (l : list cvkp) | Finished.
Record dstate := mkDState { d_phase : nat -> phase; d_out : list cvkp }.
Definition d_init : dstate := mkDState (fun _ => Todo) [].

Definition set_phase (f : nat -> phase) (i : nat) (p : phase) : nat -> phase :=
  fun j => if Nat.eqb j i then p else f j.

(** one step of worker [i]; [result i] is what it computes *)
Definition d_step (result : nat -> list cvkp) (i : nat) (s : dstate) : dstate :=
  match d_phase s i with
  | Todo => mkDState (set_phase (d_phase s) i (Computed (result i))) (d_out s)
  | Computed l => mkDState (set_phase (d_phase s) i Finished) (d_out s ++ l)
  | Finished => s
  end.
Definition d_run (result : nat -> list cvkp) (schedule : list nat) : dstate :=
  fold_left (fun s i => d_step result i s) schedule d_init.

(** [removeDuplicated]: of the keypoints at one position, the one of greatest
    response is kept (size and angle are the same for all keypoints of the
    detector used); the first one among equals *)
Definition same_pos (a b : cvkp) : bool := (k_x a =? k_x b) && (k_y a =? k_y b).
Fixpoint remove_dup_from (before : list cvkp) (l : list cvkp) : list cvkp :=
  match l with
  | [] => []
  | k :: l' =>
    let beaten := existsb (fun k' => same_pos k k' && (k_resp k <=? k_resp k')) before ||
                  existsb (fun k' => same_pos k k' && (k_resp k <? k_resp k')) l' in
    (if beaten then [] else [k]) ++ remove_dup_from (before ++ [k]) l'
  end.
Definition remove_duplicated (l : list cvkp) : list cvkp := remove_dup_from [] l.

(** [perform_keypoint_detection], keypoint_detection.cpp:404-474, with the schedule
    of the workers as argument; [None]: the loop is not finished *)
Definition detect_with (width height : Z) (tracked : list pt) (o : nat -> window_oracle) (schedule : list nat)
  : option (list cvkp) :=
  let result := fun i => window_result (window width height i) (window_counter width height tracked i) (o i) in
  let s := d_run result schedule in
  if forallb (fun i => match d_phase s i with Finished => true | _ => false end) (seq 0 window_count)
  then Some (remove_duplicated (d_out s)) else None.

(** ** [compute_keypoints], keypoint_detection.cpp:158-260 *)
Record frame_oracle := mkFO {
  fo_fwd : list pt -> list (pt * bool);
  fo_bwd : list pt -> list (pt * bool);
  fo_windows : nat -> window_oracle;
  fo_schedule : list nat;
  fo_refine : list (Z * Z) -> list pt;     (* cornerSubPix *)
  fo_describe : list pt -> list pt;        (* points kept by the descriptor extractor *)
  fo_depth : Z -> Z -> Q
}.
(** members kept between frames: is there a previous pyramid, and the handler,
    which is a function local static built at the first call (251) *)
Record extractor := mkExtractor { ex_previous : bool; ex_handler : option handler }.
Definition ex_init : extractor := mkExtractor false None.

Definition with_depth (cols rows : Z) (depth : Z -> Z -> Q) (p : pt) : outcome keypoint :=
  let* d := get_depth cols rows depth p in Ret (mkKp (fst p) (snd p) d).
Fixpoint mapM {A B} (f : A -> outcome B) (l : list A) : outcome (list B) :=
  match l with
  | [] => Ret []
  | a :: l' => let* b := f a in let* bs := mapM f l' in Ret (b :: bs)
  end.

Definition compute_keypoints (cols rows : Z) (o : frame_oracle) (last : list (N * pt)) (force : bool) (e : extractor)
  : outcome (extractor * handler) :=
  let* tracked := if ex_previous e then optical_flow cols rows (fo_fwd o) (fo_bwd o) last else Ret [] in
  let* detected :=
    if force || Nat.ltb (length tracked) max_points_per_frame
    then match detect_with cols rows (map snd tracked) (fo_windows o) (fo_schedule o) with
         | None => Diverge
         | Some [] => Ret []
         | Some (k :: ks) => Ret (fo_describe o (fo_refine o (map (fun k => (k_x k, k_y k)) (k :: ks))))
         end
    else Ret [] in
  let h := match ex_handler e with Some h => h | None => kh_new cols rows end in
  let* kps := mapM (with_depth cols rows (fo_depth o)) detected in
  let* tks := mapM (fun ip => let* k := with_depth cols rows (fo_depth o) (snd ip) in Ret (fst ip, k)) tracked in
  let* h' := kh_set kps (length kps) tks h in
  Ret (mkExtractor true (Some h'), h').
