(** Model of the extraction of planes from the grid of cells of a depth image.
    Source: /repo/src/features/primitives/histogram.hpp and
    /repo/src/features/primitives/primitive_detection.cpp.
    Oracles: which cells are planar and their mean square error (result of the fit
    of each cell), the merge tests, the result of the fit of a merged segment, the
    groups found by the cylinder fit (see CylinderModel.v), the polygon boundary.
    A segment is the list of the cells accumulated in it. Arrays are functions with
    their size. Not modelled: debug drawing, timing statistics. *)
From Coq Require Export ZArith List Bool Arith Lia.
From Verif Require Export DoubleModel.
From Flocq Require Core.Raux IEEE754.BinarySingleNaN.

(** outcome of a function that can have an undefined behaviour, or end the program *)
Inductive res (A : Type) := Ret (a : A) | Undef | OutOfFuel.
Arguments Ret {A} a.
Arguments Undef {A}.
Arguments OutOfFuel {A}.
Definition bind {A B} (x : res A) (f : A -> res B) : res B :=
  match x with Ret a => f a | Undef => Undef | OutOfFuel => OutOfFuel end.
Notation "'let*' x ':=' a 'in' b" := (bind a (fun x => b)) (at level 200, x name, right associativity).

Definition set {A} (f : nat -> A) (i : nat) (v : A) : nat -> A := fun j => if Nat.eqb j i then v else f j.

(** ** Histogram, histogram.hpp *)

(** [Size] is [depthMapPatchSize_px], 20: bins are numbered by [yQ * Size + xQ] *)
Definition hist_side : nat := 20.
Definition hist_size : nat := hist_side * hist_side.
(** [M_PI], [maxYminY] *)
Definition dpi : dbl := BinarySingleNaN.binary_normalize 53 1024 dprec demax BinarySingleNaN.mode_NE 7074237752028440 (-51) false.
Definition d2pi : dbl := dsub dpi (BinarySingleNaN.Bopp dpi).
Definition dmul (a b : dbl) : dbl := BinarySingleNaN.Bmult BinarySingleNaN.mode_NE a b.
(** [static_cast<int>(floor((Size - 1) * d / range))], histogram.hpp:48, 52 ([floor] and
    the conversion are exact) *)
Definition quantize (d range : dbl) : Z :=
  Flocq.Core.Raux.Zfloor (BinarySingleNaN.B2R (ddiv (dmul (d_of_Z (Z.of_nat (hist_side - 1))) d) range)).
(** bin of the angles of a normal, histogram.hpp:48-54 *)
Definition bin_of (theta phi : dbl) : Z :=
  let xq := quantize (dsub theta dzero) (dsub dpi dzero) in
  let yq := if (0 <? xq)%Z then quantize (dsub phi (BinarySingleNaN.Bopp dpi)) d2pi else 0%Z in
  (yq * Z.of_nat hist_side + xq)%Z.
(** [_histogram], [_bins] and its size *)
Record histogram := mkHist { h_count : nat -> nat; h_bins : nat -> Z; h_n : nat }.

(** loop of [init_histogram], 44-61, from cell [i] on; [bin i] is the bin of cell [i] *)
Fixpoint init_loop (mask : nat -> bool) (bin : nat -> nat) (is : list nat) (h : histogram) : res histogram :=
  match is with
  | [] => Ret h
  | i :: is' =>
    if mask i then
      if Nat.ltb (bin i) hist_size
      then init_loop mask bin is' (mkHist (set (h_count h) (bin i) (S (h_count h (bin i)))) (set (h_bins h) i (Z.of_nat (bin i))) (h_n h))
      else Undef
    else init_loop mask bin is' h
  end.
(** [reset] then [init_histogram], 35-62 and 118-122, for [n] cells *)
Definition init_histogram (n : nat) (mask : nat -> bool) (bin : nat -> nat) : res histogram :=
  init_loop mask bin (seq 0 n) (mkHist (fun _ => 0) (fun _ => (-1)%Z) n).

(** loop of [get_points_from_most_frequent_bin], 71-82 *)
Fixpoint most_frequent_loop (h : histogram) (is : list nat) (best : Z) (most : nat) : Z :=
  match is with
  | [] => best
  | i :: is' =>
    if Nat.ltb most (h_count h i) then most_frequent_loop h is' (Z.of_nat i) (h_count h i)
    else most_frequent_loop h is' best most
  end.
Definition most_frequent (h : histogram) : Z := most_frequent_loop h (seq 0 hist_size) (-1)%Z 0.
(** [get_points_from_most_frequent_bin], 69-98 *)
Definition best_points (h : histogram) : list nat :=
  let b := most_frequent h in
  if (0 <=? b)%Z then filter (fun i => (h_bins h i =? b)%Z) (seq 0 (h_n h)) else [].

(** [remove_point], 103-113. A bin that is not a bin index is out of the bounds of the
    counters *)
Definition remove_point (p : nat) (h : histogram) : res histogram :=
  if Nat.leb (h_n h) p then Undef
  else
    let b := h_bins h p in
    if (b <? 0)%Z || (Z.of_nat hist_size <=? b)%Z then Undef
    else
      let c := h_count h (Z.to_nat b) in
      Ret (mkHist (if Nat.eqb c 0 then h_count h else set (h_count h) (Z.to_nat b) (pred c)) (set (h_bins h) p 1%Z) (h_n h)).

(** a sequence of removals *)
Fixpoint remove_points (ps : list nat) (h : histogram) : res histogram :=
  match ps with
  | [] => Ret h
  | p :: ps' => let* h' := remove_point p h in remove_points ps' h'
  end.

(** ** Growth *)

(** [std::numeric_limits<double>::max()] *)
Definition dmax : dbl := BinarySingleNaN.binary_normalize 53 1024 dprec demax BinarySingleNaN.mode_NE (2 ^ 53 - 1) 971 false.

Section Grid.
(** [_horizontalCellsCount], [_verticalCellsCount], primitive_detection.cpp:26-29 *)
Variables H V : nat.
Definition total : nat := H * V.
(** [is_planar()] and [get_MSE()] of the cells *)
Variable planar : nat -> bool.
Variable mse : nat -> dbl.
(** [_planeGrid[a].can_be_merged(_planeGrid[b], _cellDistanceTols[b])] *)
Variable can_merge : nat -> nat -> bool.

(** [region_growing], 778-818; [free]: [_isUnassignedMask]; [from]: cell whose plane is
    expanded *)
Fixpoint region (fuel : nat) (free : nat -> bool) (x y from : nat) (active : nat -> bool) : res (nat -> bool) :=
  match fuel with
  | 0 => OutOfFuel
  | S fuel' =>
    let i := x + H * y in
    if Nat.leb total i then Ret active
    else if negb (free i) || active i then Ret active
    else if can_merge from i then
      let a := set active i true in
      let* a := if Nat.ltb 0 x then region fuel' free (x - 1) y i a else Ret a in
      let* a := if Nat.ltb x (H - 1) then region fuel' free (x + 1) y i a else Ret a in
      let* a := if Nat.ltb 0 y then region fuel' free x (y - 1) i a else Ret a in
      if Nat.ltb y (V - 1) then region fuel' free x (y + 1) i a else Ret a
    else Ret active
  end.

(** selection of the seed, 282-296; stops at the first error which is not
    positive *)
Fixpoint select_seed (l : list nat) (seed : nat) (least : dbl) : nat * dbl :=
  match l with
  | [] => (seed, least)
  | c :: l' =>
    if dle least (mse c) then select_seed l' seed least
    else if dle (mse c) dzero then (c, mse c)
    else select_seed l' c (mse c)
  end.

(** Data of the extraction: histogram, [_isUnassignedMask], number of untried
    cells (32 bits), [_gridPlaneSegmentMap], [_gridCylinderSegMap], cells of the planes
    of [_planeSegments], number of [_cylinderSegments], cylinder to region map *)
Record gstate := mkG {
  g_hist : histogram;
  g_free : nat -> bool;
  g_untried : Z;
  g_label : nat -> nat;
  g_cylinder_label : nat -> nat;
  g_planes : list (list nat);
  g_cylinders : nat;
  g_map : list (nat * nat)
}.

(** merge of the activated cells, 340-360: cells accumulated so far, number of
    activated cells *)
Fixpoint merge_cells (active : nat -> bool) (is : list nat) (cells : list nat) (count : nat) (g : gstate)
  : res ((list nat * nat) * gstate) :=
  match is with
  | [] => Ret ((cells, count), g)
  | i :: is' =>
    if active i && planar i then
      let* h := remove_point i (g_hist g) in
      merge_cells active is' (cells ++ [i]) (S count)
        (mkG h (set (g_free g) i false) ((g_untried g - 1) mod 2 ^ 32)%Z
             (g_label g) (g_cylinder_label g) (g_planes g) (g_cylinders g) (g_map g))
    else merge_cells active is' cells count g
  end.

(** [minimumPlaneSeedProportion * _totalCellCount], [minimumCellActivatedProportion *
    _totalCellCount], truncated *)
Variables min_seeds min_cells : nat.
(** result of [fit_plane] on accumulated cells: planar, score above 100 *)
Variable fit_ok : list nat -> bool.
Variable score_high : list nat -> bool.
(** the groups of cells of [Cylinder_Segment(_planeGrid, isActivatedMap, count)]; MSE of
    the plane less than MSE of part [k] *)
Variable cylinder_fit : list nat -> list (list nat).
Variable plane_better : list nat -> list nat -> bool.

Definition set_labels (f : nat -> nat) (cells : list nat) (v : nat) : nat -> nat :=
  fun j => if existsb (Nat.eqb j) cells then v else f j.

(** [add_plane_segment_to_features], 391-413 *)
Definition add_plane (cells : list nat) (active : nat -> bool) (g : gstate) : gstate :=
  mkG (g_hist g) (g_free g) (g_untried g)
      (fun j => if Nat.ltb j total && active j then S (length (g_planes g)) else g_label g j)
      (g_cylinder_label g) (g_planes g ++ [cells]) (g_cylinders g) (g_map g).

(** [find_plane_segment_in_cylinder] and [add_cylinder_to_features], 415-478, for part
    [k] with the cells [group]; [act]: the activated cells *)
Definition add_part (act : list nat) (k : nat) (group : list nat) (g : gstate) : gstate :=
  let merged := filter planar group in
  if Nat.eqb (length merged) 0 then g
  else if plane_better act merged then
    mkG (g_hist g) (g_free g) (g_untried g) (set_labels (g_label g) group (S (length (g_planes g))))
        (g_cylinder_label g) (g_planes g ++ [merged]) (g_cylinders g) (g_map g)
  else
    mkG (g_hist g) (g_free g) (g_untried g) (g_label g)
        (set_labels (g_cylinder_label g) group (S (length (g_map g)))) (g_planes g) (g_cylinders g)
        (g_map g ++ [(g_cylinders g - 1, k)]).
Fixpoint add_parts (act : list nat) (k : nat) (groups : list (list nat)) (g : gstate) : gstate :=
  match groups with
  | [] => g
  | group :: groups' => add_parts act (S k) groups' (add_part act k group g)
  end.
(** [cylinder_fitting], 480-501 *)
Definition cylinder_fitting (active : nat -> bool) (g : gstate) : gstate :=
  let act := filter active (seq 0 total) in
  add_parts act 0 (cylinder_fit act)
    (mkG (g_hist g) (g_free g) (g_untried g) (g_label g) (g_cylinder_label g) (g_planes g) (S (g_cylinders g)) (g_map g)).

(** [grow_plane_segment_at_seed], 312-389 *)
Definition grow_at (seed : nat) (g : gstate) : res gstate :=
  if negb (planar seed) then Ret g
  else
    let* active := region (S total) (g_free g) (seed mod H) (seed / H) seed (fun _ => false) in
    let* r := merge_cells active (seq 0 total) [seed] 0 g in
    let '((cells, count), g') := r in
    if Nat.eqb count 0 || Nat.ltb count min_cells then
      let* h := remove_point seed (g_hist g') in
      Ret (mkG h (g_free g') (g_untried g') (g_label g') (g_cylinder_label g') (g_planes g') (g_cylinders g') (g_map g'))
    else if negb (fit_ok cells) then Ret g'
    else if score_high cells then Ret (add_plane cells active g')
    else if Nat.ltb 5 count then Ret (cylinder_fitting active g')
    else Ret g'.

(** a turn of the loop of [grow_planes_and_cylinders], 273-308: [None]: the loop ends *)
Definition turn (g : gstate) : res (option gstate) :=
  if (g_untried g <=? 0)%Z then Ret None
  else
    let candidates := best_points (g_hist g) in
    if Nat.ltb (length candidates) min_seeds then Ret None
    else
      let '(seed, least) := select_seed candidates 0 dmax in
      if dle dmax least then Ret None
      else let* g' := grow_at seed g in Ret (Some g').

(** [grow_planes_and_cylinders], 267-310 *)
Fixpoint grow (fuel : nat) (g : gstate) : res gstate :=
  match fuel with
  | 0 => OutOfFuel
  | S fuel' =>
    let* r := turn g in
    match r with None => Ret g | Some g' => grow fuel' g' end
  end.

(** [reset_data] and [init_histogram], 167-184 and 241-265; [bin]: bin of the normal *)
Variable bin : nat -> nat.
Definition count_if (f : nat -> bool) (n : nat) : nat := length (filter f (seq 0 n)).
Definition g_init : res gstate :=
  let mask := fun i => Nat.ltb i total && planar i in
  let* h := init_histogram total mask bin in
  Ret (mkG h mask (Z.of_nat (count_if planar total) mod 2 ^ 32)%Z (fun _ => 0) (fun _ => 0) [] 0 []).
Definition extract (fuel : nat) : res gstate := let* g := g_init in grow fuel g.
End Grid.

(** ** Merge of the planes *)
Section Merge.
(** [get_connected_components_matrix], 736-776, on a map of [rows] x [cols] labels (0: no
    plane): is plane [a] connected to plane [b] (numbered from 0). The matrix is
    described by the pairs written. *)
Definition pairs_at (label : nat -> nat -> nat) (r c : nat) : list (nat * nat) :=
  let p := label r c in
  if Nat.eqb p 0 then []
  else
    let next := label r (S c) in
    let below := label (S r) c in
    (if negb (Nat.eqb next 0) && negb (Nat.eqb p next) then [(p - 1, next - 1); (next - 1, p - 1)] else []) ++
    (if negb (Nat.eqb below 0) && negb (Nat.eqb p below) then [(p - 1, below - 1); (below - 1, p - 1)] else []).
Definition connected_pairs (rows cols : nat) (label : nat -> nat -> nat) : list (nat * nat) :=
  flat_map (fun r => flat_map (fun c => pairs_at label r c) (seq 0 (cols - 1))) (seq 0 (rows - 1)).
Definition connected (rows cols : nat) (label : nat -> nat -> nat) (a b : nat) : bool :=
  existsb (fun p => Nat.eqb (fst p) a && Nat.eqb (snd p) b) (connected_pairs rows cols label).

(** [merge_planes], 503-560. A plane segment: cells accumulated, cells at the last
    successful fit, planar. *)
Record segment := mkSeg { s_cells : list nat; s_fit : list nat; s_planar : bool }.
Variable fit_ok : list nat -> bool.
(** [can_be_merged(p, maximumPlaneDistanceForMerge_mm)], from the fits *)
Variable seg_merge : list nat -> list nat -> bool.
Definition refit (s : segment) : segment :=
  if fit_ok (s_cells s) then mkSeg (s_cells s) (s_cells s) true else mkSeg (s_cells s) (s_fit s) false.

Definition no_seg : segment := mkSeg [] [] false.
Record mstate := mkM { m_seg : nat -> segment; m_label : nat -> nat; m_con : nat -> nat -> bool }.

(** inner loop, 530-553, over the columns [cs], and whether the plane was expanded *)
Fixpoint merge_row (row id : nat) (cs : list nat) (m : mstate) (expanded : bool) : mstate * bool :=
  match cs with
  | [] => (m, expanded)
  | c :: cs' =>
    if negb (m_con m row c) then merge_row row id cs' m expanded
    else if negb (s_planar (m_seg m c)) then merge_row row id cs' m expanded
    else if seg_merge (s_fit (m_seg m id)) (s_fit (m_seg m c)) then
      let s := m_seg m id in
      merge_row row id cs'
        (mkM (set (m_seg m) id (mkSeg (s_cells s ++ s_cells (m_seg m c)) (s_fit s) (s_planar s)))
             (set (m_label m) c id) (m_con m)) true
    else
      merge_row row id cs'
        (mkM (m_seg m) (m_label m)
             (fun a b => if (Nat.eqb a row && Nat.eqb b c) || (Nat.eqb a c && Nat.eqb b row) then false else m_con m a b)) expanded
  end.
(** one row, 520-558 *)
Definition merge_one (n row : nat) (m : mstate) : mstate :=
  let id := m_label m row in
  if negb (s_planar (m_seg m id)) then m
  else
    let '(m', expanded) := merge_row row id (seq (S row) (n - S row)) m false in
    if expanded then mkM (set (m_seg m') id (refit (m_seg m' id))) (m_label m') (m_con m') else m'.
Definition merge_planes (n : nat) (seg : nat -> segment) (con : nat -> nat -> bool) : mstate :=
  fold_left (fun m row => merge_one n row m) (seq 0 n) (mkM seg (fun i => i) con).

(** masks of [add_planes_to_primitives], 562-588: the planes kept and the planes whose
    cells are in their mask *)
Definition kept (n : nat) (m : mstate) : list (nat * list nat) :=
  map (fun i => (i, filter (fun j => Nat.eqb (m_label m j) i) (seq i (n - i))))
      (filter (fun i => Nat.eqb (m_label m i) i && s_planar (m_seg m i)) (seq 0 n)).
Definition in_mask (label : nat -> nat) (merged : list nat) (cell : nat) : bool :=
  existsb (fun j => Nat.eqb (label cell) (S j)) merged.
End Merge.

(** ** All the planes of a frame: [find_primitives], 118-166, without the polygons *)
Section Planes.
Variables H V : nat.
Variable planar : nat -> bool.
Variable mse : nat -> dbl.
Variable can_merge : nat -> nat -> bool.
Variables min_seeds min_cells : nat.
Variable fit_ok score_high : list nat -> bool.
Variable cylinder_fit : list nat -> list (list nat).
Variable plane_better : list nat -> list nat -> bool.
Variable bin : nat -> nat.
Variable seg_merge : list nat -> list nat -> bool.
(** segments after growth: all were fitted after their last expansion *)
Definition segments_of (planes : list (list nat)) (k : nat) : segment :=
  match nth_error planes k with Some cells => mkSeg cells cells (fit_ok cells) | None => no_seg end.
(** final grid, merge result and, for each plane reported, its number and the planes of
    its mask *)
Definition find_planes (fuel : nat) : res (gstate * mstate * list (nat * list nat)) :=
  let* g := extract H V planar mse can_merge min_seeds min_cells fit_ok score_high cylinder_fit plane_better bin fuel in
  let n := length (g_planes g) in
  let m := merge_planes fit_ok seg_merge n (segments_of (g_planes g)) (connected V H (fun r c => g_label g (c + H * r))) in
  Ret (g, m, kept n m).
End Planes.
