(** Properties C06 and C14-C16: exclusive matching, search grid, candidates,
    tracked identifiers. *)
From Coq Require Import ZifyBool ZifyNat ZifyN Permutation.
From Verif Require Import FeatureMapModel FeatureMapSpec FeatureMapProofs FeatureMapHistory FeatureMapMore
  LocalMapModel LocalMapProofs KeypointModel KeypointProofs KeypointClaims.
Local Open Scope Z_scope.

(** ** C14 — search grid *)

(** Image of [cols] x [rows] pixels (up to a million each). Every position, in
    the image or not, is given a cell inside of the cells container, if and
    only if the image has at least as many columns of cells as rows of cells,
    or a single row of cells. *)
Theorem C14_cell_index_in_range :
  forall cols rows, 0 < cols <= 1000000 -> 0 < rows <= 1000000 ->
  let h := kh_new cols rows in
  ((forall x y r c, kh_coords h x y = (r, c) ->
      0 <= kh_index h c r < Z.of_nat (length (kh_cells h))) <->
   (cell_count rows <= cell_count cols \/ cell_count rows = 1)).
Proof.
  intros cols rows Hc Hr h. pose proof (kh_new_fits cols rows Hc Hr) as F. fold h in F.
  pose proof (index_all_in_range_iff h F) as I. unfold landscape in I. change (kh_cy h) with (cell_count rows) in I.
  change (kh_cx h) with (cell_count cols) in I. rewrite <- I.
  destruct F as (A & B & ->). change (kh_cx h) with (cell_count cols) in *. change (kh_cy h) with (cell_count rows) in *.
  replace (Z.of_nat (Z.to_nat (cell_count cols * cell_count rows))) with (cell_count cols * cell_count rows); [reflexivity|].
  rewrite Z2Nat.id; [reflexivity|]. apply Z.mul_nonneg_nonneg; lia.
Qed.
Print Assumptions C14_cell_index_in_range.

(** An image at least as wide as high is in that case ... *)
Theorem C14_landscape_images :
  forall cols rows, 0 < rows <= cols -> cell_count rows <= cell_count cols.
Proof. intros cols rows H. unfold cell_count. apply Z.div_le_mono; [reflexivity|lia]. Qed.
Print Assumptions C14_landscape_images.

(** The cells are squares of 31 pixels, in the smallest number that covers the
    image. *)
Theorem C14_cells_cover :
  forall cols rows, 0 < cols -> 0 < rows ->
  let h := kh_new cols rows in
  31 * (kh_cx h - 1) < cols <= 31 * kh_cx h /\ 31 * (kh_cy h - 1) < rows <= 31 * kh_cy h /\
  kh_cells h = repeat [] (Z.to_nat (kh_cx h * kh_cy h)).
Proof.
  assert (C : forall n, 0 < n -> 31 * (cell_count n - 1) < n <= 31 * cell_count n).
  { intros n Hn. unfold cell_count, cellSize, matchSearchRadius.
    change (30 + 1) with 31. pose proof (Z.div_mod (n + (31 - 1)) 31 ltac:(lia)). pose proof (Z.mod_pos_bound (n + (31 - 1)) 31 ltac:(lia)). lia. }
  intros cols rows Hc Hr h. split; [now apply (C cols)|]. split; [now apply (C rows)|reflexivity].
Qed.
Print Assumptions C14_cells_cover.

(** ... so filling the container with keypoints at any positions never leaves
    it, and each detected keypoint is then in exactly one cell, once the handler
    is filled: the one of its position. *)
Theorem C14_set_never_out_of_range :
  forall cols rows detected tracked, 0 < rows <= cols -> cols <= 1000000 ->
  exists h, kh_set detected (length detected) tracked (kh_new cols rows) = Ret h /\
    kh_keypoints h = detected ++ map snd tracked /\
    forall c j, (exists cell, nth_error (kh_cells h) c = Some cell /\ In j cell) <->
                (exists k, nth_error detected j = Some k /\
                   let '(row, col) := kh_coords h (kp_x k) (kp_y k) in c = Z.to_nat (kh_index h col row)).
Proof.
  intros cols rows detected tracked H1 H2.
  assert (F : fits (kh_new cols rows)) by (apply kh_new_fits; lia).
  destruct (kh_set_built (kh_new cols rows) detected tracked F) as (h & E & B & _).
  { left. now apply C14_landscape_images. }
  exists h. split; [exact E|]. split; [apply (b_kps _ _ _ B)|]. intros c j. rewrite (b_cells _ _ _ B).
  unfold cell_of. split; intros (k & X & Y); exists k; (split; [exact X|]);
    destruct (kh_coords h (kp_x k) (kp_y k)) as [row col]; congruence.
Qed.
Print Assumptions C14_set_never_out_of_range.

(** A portrait image: a keypoint of its last row is stored outside of the
    container. *)
Theorem C14_portrait_refuted :
  kh_set [mkKp 470 630 1000] 1 [] (kh_new 480 640) = UB.
Proof. vm_compute. reflexivity. Qed.
Print Assumptions C14_portrait_refuted.

Example C14_example :
  exists h, kh_set [mkKp 639 479 1000; mkKp 0 0 0] 2 [] (kh_new 640 480) = Ret h /\
    nth_error (kh_cells h) (Z.to_nat (kh_index h 20 15)) = Some [0%nat] /\ nth_error (kh_cells h) 0 = Some [1%nat].
Proof.
  destruct (C14_set_never_out_of_range 640 480 [mkKp 639 479 1000; mkKp 0 0 0] [] ltac:(lia) ltac:(lia)) as (h & E & _).
  exists h. split; [exact E|]. vm_compute in E. injection E as <-. vm_compute. auto.
Qed.

(** ** C15 — candidates *)

(** For every detected keypoints, position, matched flags and radius of at least
    one cell: the candidates are exactly the unmatched detected keypoints within
    the search radius, except when the position lies in the first [radius] rows
    or columns of cells, where there is no candidate. *)
Theorem C15_candidates_exact :
  forall cols rows detected tracked h x y flags radius,
  0 < rows <= cols -> cols <= 1000000 ->
  kh_set detected (length detected) tracked (kh_new cols rows) = Ret h ->
  length flags = (length detected + length tracked)%nat -> 1 <= radius <= 1000 ->
  exists mask, kh_mask h x y flags radius = Ret mask /\ length mask = length detected /\
    forall n, nth_error mask n = Some true <->
      radius <= fst (kh_coords h x y) /\ radius <= snd (kh_coords h x y) /\
      nth_error flags n = Some false /\
      exists k, nth_error detected n = Some k /\
        ((kp_x k - x) * (kp_x k - x) + (kp_y k - y) * (kp_y k - y) <= 30 * 30)%Q.
Proof.
  intros cols rows detected tracked h x y flags radius H1 H2 E Lf Rr.
  destruct (kh_set_built (kh_new cols rows) detected tracked) as (h' & E' & B & _).
  { apply kh_new_fits; lia. } { left. now apply C14_landscape_images. }
  rewrite E in E'. injection E' as <-.
  destruct (kh_coords h x y) as [r c] eqn:Ec.
  destruct (kh_mask_exact h x y flags radius detected tracked r c B) as (m & Em & Lm & N); auto.
  { rewrite (b_kps _ _ _ B), app_length, map_length. exact Lf. }
  exists m. split; [exact Em|]. split; [exact Lm|exact N].
Qed.
Print Assumptions C15_candidates_exact.

(** In pixels: at least [31 * radius] pixels away from the left and top borders
    (and in the grid), the search is complete. *)
Theorem C15_complete_away_from_borders :
  forall cols rows detected tracked h (x y : Q) flags radius n k,
  0 < rows <= cols -> cols <= 1000000 ->
  kh_set detected (length detected) tracked (kh_new cols rows) = Ret h ->
  length flags = (length detected + length tracked)%nat -> 1 <= radius <= 1000 ->
  (inject_Z (31 * radius) <= x)%Q -> (inject_Z (31 * radius) <= y)%Q -> 31 * radius < rows ->
  nth_error detected n = Some k -> nth_error flags n = Some false ->
  ((kp_x k - x) * (kp_x k - x) + (kp_y k - y) * (kp_y k - y) <= 30 * 30)%Q ->
  exists mask, kh_mask h x y flags radius = Ret mask /\ nth_error mask n = Some true.
Proof.
  intros cols rows detected tracked h x y flags radius n k H1 H2 E Lf Rr Hx Hy Hrow Hn Hf Hd.
  destruct (C15_candidates_exact cols rows detected tracked h x y flags radius H1 H2 E Lf Rr) as (m & Em & _ & N).
  exists m. split; [exact Em|]. apply N.
  destruct (kh_set_built (kh_new cols rows) detected tracked) as (h' & E' & B & Cx & Cy).
  { apply kh_new_fits; lia. } { left. now apply C14_landscape_images. }
  rewrite E in E'. injection E' as <-. cbn [kh_new kh_cx kh_cy] in Cx, Cy.
  assert (Cell : forall d, 31 * radius < d -> radius <= cell_count d - 1).
  { intros d Hd'. unfold cell_count, cellSize, matchSearchRadius. cbn.
    assert (radius + 1 <= (d + 30) / 31) by (apply Z.div_le_lower_bound; lia). lia. }
  assert (Fl : forall q : Q, (inject_Z (31 * radius) <= q)%Q -> radius <= Qfloor (q / inject_Z cellSize)).
  { intros q Hq. rewrite <- (Qfloor_Z radius). apply Qfloor_resp_le. unfold cellSize, matchSearchRadius.
    apply Qle_shift_div_l; [reflexivity|]. rewrite <- inject_Z_mult. now rewrite Z.mul_comm. }
  split; [|split; [|split; [exact Hf|exists k; auto]]].
  - unfold kh_coords. cbn [fst]. rewrite Cy. specialize (Fl y Hy). specialize (Cell rows Hrow). unfold zclamp.
    destruct (Z.ltb_spec (Qfloor (y / inject_Z cellSize)) 0); [lia|].
    destruct (Z.ltb_spec (cell_count rows - 1) (Qfloor (y / inject_Z cellSize))); lia.
  - unfold kh_coords. cbn [snd]. rewrite Cx. specialize (Fl x Hx). specialize (Cell cols ltac:(lia)). unfold zclamp.
    destruct (Z.ltb_spec (Qfloor (x / inject_Z cellSize)) 0); [lia|].
    destruct (Z.ltb_spec (cell_count cols - 1) (Qfloor (x / inject_Z cellSize))); lia.
Qed.
Print Assumptions C15_complete_away_from_borders.

(** Completeness fails near the left and top borders: an unmatched keypoint
    exactly at the searched position is not a candidate. *)
Theorem C15_completeness_refuted :
  exists h mask, kh_set [mkKp 10 200 1000] 1 [] (kh_new 640 480) = Ret h /\
    kh_mask h 10 200 [false] (cell_radius false) = Ret mask /\ nth_error mask 0 = Some false.
Proof.
  eexists. eexists. split; [vm_compute; reflexivity|]. split; vm_compute; reflexivity.
Qed.
Print Assumptions C15_completeness_refuted.

(** The advanced search looks in more cells but with the same radius, and skips
    more of the borders: what it finds, the basic search finds. *)
Theorem C15_advanced_search_not_wider :
  forall cols rows detected tracked h x y flags m m',
  0 < rows <= cols -> cols <= 1000000 ->
  kh_set detected (length detected) tracked (kh_new cols rows) = Ret h ->
  length flags = (length detected + length tracked)%nat ->
  kh_mask h x y flags (cell_radius false) = Ret m -> kh_mask h x y flags (cell_radius true) = Ret m' ->
  forall n, nth_error m' n = Some true -> nth_error m n = Some true.
Proof.
  intros cols rows detected tracked h x y flags m m' H1 H2 E Lf M M' n Hn.
  destruct (C15_candidates_exact _ _ _ _ h x y flags (cell_radius false) H1 H2 E Lf (cell_radius_range _)) as (a & Ea & _ & Na).
  destruct (C15_candidates_exact _ _ _ _ h x y flags (cell_radius true) H1 H2 E Lf (cell_radius_range _)) as (b & Eb & _ & Nb).
  rewrite M in Ea. rewrite M' in Eb. injection Ea as <-. injection Eb as <-.
  apply Nb in Hn. apply Na. destruct Hn as (A & B & C). change (cell_radius true) with 2 in *. change (cell_radius false) with 1. 
  split; [lia|]. split; [lia|exact C].
Qed.
Print Assumptions C15_advanced_search_not_wider.

Example C15_example :
  exists h, kh_set [mkKp 100 100 1; mkKp 130 100 1; mkKp 131 100 1; mkKp 110 110 1] 4 [(7%N, mkKp 100 101 1)] (kh_new 640 480) = Ret h /\
    kh_mask h 100 100 [false; false; false; true; false] (cell_radius false) = Ret [true; true; false; false].
Proof. eexists. split; [vm_compute; reflexivity|vm_compute; reflexivity]. Qed.

(** ** C16 — tracked identifiers *)

(** A found index is the index, in the frame's keypoints, of a tracked keypoint
    that carries this identifier; identifier 0 is never found. *)
Theorem C16_found_carries_identifier :
  forall cols rows detected tracked h id i,
  0 < rows <= cols -> cols <= 1000000 ->
  kh_set detected (length detected) tracked (kh_new cols rows) = Ret h ->
  kh_tracking h id = Some i ->
  id <> 0%N /\ exists j kp, i = (length detected + j)%nat /\ nth_error tracked j = Some (id, kp) /\
                            nth_error (kh_keypoints h) i = Some kp.
Proof.
  intros cols rows detected tracked h id i H1 H2 E T.
  destruct (kh_set_built (kh_new cols rows) detected tracked) as (h' & E' & B & _).
  { apply kh_new_fits; lia. } { left. now apply C14_landscape_images. }
  rewrite E in E'. injection E' as <-.
  destruct (tracking_sound h detected tracked id i B T) as (A & j & kp & X & Y & Z). split; [exact A|]. exists j, kp. auto.
Qed.
Print Assumptions C16_found_carries_identifier.

(** If the tracked identifiers are distinct, each non zero one is found at its
    keypoint. *)
Theorem C16_always_found :
  forall cols rows detected tracked h id j kp,
  0 < rows <= cols -> cols <= 1000000 ->
  kh_set detected (length detected) tracked (kh_new cols rows) = Ret h ->
  NoDup (map fst tracked) -> id <> 0%N -> nth_error tracked j = Some (id, kp) ->
  kh_tracking h id = Some (length detected + j)%nat.
Proof.
  intros cols rows detected tracked h id j kp H1 H2 E ND N0 Hj.
  destruct (kh_set_built (kh_new cols rows) detected tracked) as (h' & E' & B & _).
  { apply kh_new_fits; lia. } { left. now apply C14_landscape_images. }
  rewrite E in E'. injection E' as <-. eapply tracking_complete; eauto.
Qed.
Print Assumptions C16_always_found.

(** The lookup that is given the matched flags returns the same keypoint, unless
    it is already matched. *)
Theorem C16_found_unmatched :
  forall cols rows detected tracked h id flags,
  0 < rows <= cols -> cols <= 1000000 ->
  kh_set detected (length detected) tracked (kh_new cols rows) = Ret h ->
  length flags = (length detected + length tracked)%nat ->
  exists r, kh_tracking_flags h id flags = Ret r /\
    forall i, r = Some i <-> kh_tracking h id = Some i /\ nth_error flags i = Some false.
Proof.
  intros cols rows detected tracked h id flags H1 H2 E Lf. unfold kh_tracking_flags.
  destruct (kh_tracking h id) as [i|] eqn:T.
  - destruct (C16_found_carries_identifier _ _ _ _ _ _ _ H1 H2 E T) as (_ & j & kp & Y & X & _).
    assert (j < length tracked)%nat by (apply nth_error_Some; congruence).
    destruct (nth_error flags i) as [b|] eqn:F; [|apply nth_error_None in F; lia].
    eexists. split; [reflexivity|]. intros i'. destruct b; split; try discriminate.
    + intros [X1 X2]. congruence.
    + intros Q. injection Q as <-. auto.
    + intros [X1 X2]. congruence.
  - exists None. split; [reflexivity|]. intros i'. split; [discriminate|]. intros [X _]. discriminate.
Qed.
Print Assumptions C16_found_unmatched.

(** Distinctness matters: of two keypoints with the same identifier only the
    last one is found. *)
Example C16_example :
  exists h, kh_set [mkKp 100 100 1] 1 [(7%N, mkKp 1 1 1); (0%N, mkKp 2 2 1); (9%N, mkKp 3 3 1); (7%N, mkKp 4 4 1)] (kh_new 640 480) = Ret h /\
    kh_tracking h 9 = Some 3%nat /\ kh_tracking h 7 = Some 4%nat /\ kh_tracking h 0 = None /\ kh_tracking h 8 = None /\
    kh_tracking_flags h 9 [false; false; false; true; false] = Ret None.
Proof. eexists. split; [vm_compute; reflexivity|]. vm_compute. auto. Qed.

(** ** C06 — exclusive matching *)

(** The claims of a map after a matching: no detection claimed by two features,
    and the matched flags tell exactly which detections are claimed. *)
Definition no_shared_claim {D Det} (dets : list Det) (s : fstate D) : Prop :=
  (forall a b f f' k, In (a, f) (s_local s ++ s_staged s) -> In (b, f') (s_local s ++ s_staged s) ->
     In k (f_matches f) -> In k (f_matches f') -> a = b) /\
  length (s_flags s) = length dets /\
  (forall k, nth_error (s_flags s) k = Some true <->
     exists a f, In (a, f) (s_local s ++ s_staged s) /\ In k (f_matches f)).

Definition ret_or_none {A B} (x : outcome (list A * list B)) : list A * list B :=
  match x with Ret r => r | _ => ([], []) end.

Lemma window_ok {D Cam} (proj : Cam -> D -> option (Q * Q)) dist h detected tracked cam adv d flags :
  built h detected tracked -> length flags = length (kh_keypoints h) ->
  exists idx, window_find proj dist h cam adv d flags = Ret idx /\
    forall k, In k idx -> (k < length detected)%nat /\ nth_error flags k = Some false.
Proof.
  intros B Lf. unfold window_find. destruct (proj cam d) as [[x y]|]; [|exists []; split; auto; intros k []].
  destruct (kh_match_ok h (dist d) x y flags adv detected tracked B Lf) as (idx & E & _ & S).
  exists idx. split; [exact E|]. intros k Hk. apply S in Hk. destruct Hk as (A & kp & X & _). split; auto.
  apply nth_error_Some. congruence.
Qed.

Lemma point_find_ok {D Cam Mt} (proj : Cam -> D -> option (Q * Q)) dist (mk : feat D -> nat -> Mt)
  h detected tracked cam adv add f flags :
  built h detected tracked -> length flags = length (kh_keypoints h) ->
  exists r, point_find proj dist mk h cam adv add f flags = Ret r /\
    forall k, In k (fst r) -> (k < length (kh_keypoints h))%nat /\
      (kh_tracking h (f_id f) = Some k \/ ((k < length detected)%nat /\ nth_error flags k = Some false)).
Proof.
  intros B Lf. unfold point_find.
  assert (Lk : length (kh_keypoints h) = (length detected + length tracked)%nat)
    by (rewrite (b_kps _ _ _ B), app_length, map_length; reflexivity).
  destruct (kh_tracking h (f_id f)) as [i|] eqn:T; cbn [bind].
  - eexists. split; [reflexivity|]. cbn [fst]. intros k [<-|[]]. split; auto.
    destruct (tracking_sound _ _ _ _ _ B T) as (_ & j & kp & X & Y & Z). apply nth_error_Some. congruence.
  - destruct (window_ok proj dist h detected tracked cam adv (f_data f) flags B Lf) as (idx & -> & S). cbn [bind].
    eexists. split; [reflexivity|]. cbn [fst]. intros k Hk. apply S in Hk. split; [lia|auto].
Qed.

Lemma point2d_find_ok {D Cam Mt} (proj : Cam -> D -> option (Q * Q)) dist
  h detected tracked cam adv add (f : feat D) flags :
  built h detected tracked -> length flags = length (kh_keypoints h) ->
  exists r, point2d_find (Mt:=Mt) proj dist h cam adv add f flags = Ret r /\
    forall k, In k (fst r) -> (k < length (kh_keypoints h))%nat /\ (k < length detected)%nat /\ nth_error flags k = Some false.
Proof.
  intros B Lf. unfold point2d_find.
  assert (Lk : length (kh_keypoints h) = (length detected + length tracked)%nat)
    by (rewrite (b_kps _ _ _ B), app_length, map_length; reflexivity).
  unfold kh_tracking_flags. destruct (kh_tracking h (f_id f)) as [i|] eqn:T; cbn [bind].
  - destruct (tracking_sound _ _ _ _ _ B T) as (_ & j & kp & X & Y & Z).
    destruct (nth_error flags i) as [b|] eqn:F.
    + cbn [bind]. destruct b.
      * destruct (window_ok proj dist h detected tracked cam adv (f_data f) flags B Lf) as (idx & -> & S). cbn [bind].
        eexists. split; [reflexivity|]. cbn [fst]. intros k Hk. apply S in Hk. split; [lia|auto].
      * eexists. split; [reflexivity|]. intros k [].
    + exfalso. apply nth_error_None in F. assert (i < length (kh_keypoints h))%nat by (apply nth_error_Some; congruence). lia.
  - destruct (window_ok proj dist h detected tracked cam adv (f_data f) flags B Lf) as (idx & -> & S). cbn [bind].
    eexists. split; [reflexivity|]. cbn [fst]. intros k Hk. apply S in Hk. split; [lia|auto].
Qed.

(** Matching 3D points never accesses anything out of range, and neither does
    matching 2D points. *)
Theorem C06_point_find_returns :
  forall (D Cam Mt : Type) (proj : Cam -> D -> option (Q * Q)) dist (mk : feat D -> nat -> Mt)
    cols rows detected tracked h cam adv add f flags,
  0 < rows <= cols -> cols <= 1000000 ->
  kh_set detected (length detected) tracked (kh_new cols rows) = Ret h ->
  length flags = (length detected + length tracked)%nat ->
  (exists r, point_find proj dist mk h cam adv add f flags = Ret r) /\
  (exists r, point2d_find (Mt:=Mt) proj dist h cam adv add f flags = Ret r).
Proof.
  intros D Cam Mt proj dist mk cols rows detected tracked h cam adv add f flags H1 H2 E Lf.
  destruct (kh_set_built (kh_new cols rows) detected tracked) as (h' & E' & B & _).
  { apply kh_new_fits; lia. } { left. now apply C14_landscape_images. }
  rewrite E in E'. injection E' as <-.
  assert (Lk : length flags = length (kh_keypoints h))
    by (rewrite (b_kps _ _ _ B), app_length, map_length; exact Lf).
  split.
  - destruct (point_find_ok proj dist mk h detected tracked cam adv add f flags B Lk) as (r & X & _). eauto.
  - destruct (point2d_find_ok (Mt:=Mt) proj dist h detected tracked cam adv add f flags B Lk) as (r & X & _). eauto.
Qed.
Print Assumptions C06_point_find_returns.

(** In every reachable state of a map of 3D points, for every keypoints of a
    frame (detected or tracked by optical flow), every projection, and every
    descriptor distances: the matching returns, and no keypoint is claimed by
    two map points. *)
Theorem C06_points_exclusive :
  forall (D Det Ctx Cam Mt U : Type) (p : policy D Det Ctx (handler * Cam) Mt U)
    proj dist (mk : feat D -> nat -> Mt) hist s g cols rows detected tracked h cam dets n,
  run p hist s g -> (g_allocs g < 2 ^ 64)%N -> s_active s = true ->
  0 < rows <= cols -> cols <= 1000000 ->
  kh_set detected (length detected) tracked (kh_new cols rows) = Ret h ->
  length dets = (length detected + length tracked)%nat ->
  (forall adv add f flags, p_find p (h, cam) adv add dets f flags =
                           ret_or_none (point_find proj dist mk h cam adv add f flags)) ->
  exists s' mt, get_matches p (h, cam) n dets s = Ret (s', mt) /\ no_shared_claim dets s'.
Proof.
  intros D Det Ctx Cam Mt U p proj dist mk hist s g cols rows detected tracked h cam dets n R NW Ac H1 H2 E Ld Hp.
  destruct (kh_set_built (kh_new cols rows) detected tracked) as (h' & E' & B & _).
  { apply kh_new_fits; lia. } { left. now apply C14_landscape_images. }
  rewrite E in E'. injection E' as <-.
  pose proof (run_wf _ _ _ _ R NW) as W.
  assert (Lk : length (kh_keypoints h) = length dets)
    by (rewrite (b_kps _ _ _ B), app_length, map_length; lia).
  apply (get_matches_claims p (h, cam) dets (kh_tracking h)); auto; try apply W.
  split; [intros; eapply tracking_inj; eauto|].
  intros adv add f flags k Lf Hk. rewrite Hp in Hk.
  destruct (point_find_ok proj dist mk h detected tracked cam adv add f flags B) as (r & Er & S); [congruence|].
  rewrite Er in Hk. apply S in Hk. destruct Hk as [A [X|[X Y]]]; (split; [lia|]); auto.
  right. split; auto. intros a T. destruct (tracking_sound _ _ _ _ _ B T) as (_ & j & kp & _ & Q & _). lia.
Qed.
Print Assumptions C06_points_exclusive.

(** The same for 2D points. *)
Theorem C06_points2d_exclusive :
  forall (D Det Ctx Cam Mt U : Type) (p : policy D Det Ctx (handler * Cam) Mt U)
    proj dist hist s g cols rows detected tracked h cam dets n,
  run p hist s g -> (g_allocs g < 2 ^ 64)%N -> s_active s = true ->
  0 < rows <= cols -> cols <= 1000000 ->
  kh_set detected (length detected) tracked (kh_new cols rows) = Ret h ->
  length dets = (length detected + length tracked)%nat ->
  (forall adv add f flags, p_find p (h, cam) adv add dets f flags =
                           ret_or_none (point2d_find proj dist h cam adv add f flags)) ->
  exists s' mt, get_matches p (h, cam) n dets s = Ret (s', mt) /\ no_shared_claim dets s'.
Proof.
  intros D Det Ctx Cam Mt U p proj dist hist s g cols rows detected tracked h cam dets n R NW Ac H1 H2 E Ld Hp.
  destruct (kh_set_built (kh_new cols rows) detected tracked) as (h' & E' & B & _).
  { apply kh_new_fits; lia. } { left. now apply C14_landscape_images. }
  rewrite E in E'. injection E' as <-.
  pose proof (run_wf _ _ _ _ R NW) as W.
  assert (Lk : length (kh_keypoints h) = length dets)
    by (rewrite (b_kps _ _ _ B), app_length, map_length; lia).
  apply (get_matches_claims p (h, cam) dets (fun _ => None)); auto; try apply W.
  split; [discriminate|].
  intros adv add f flags k Lf Hk. rewrite Hp in Hk.
  destruct (point2d_find_ok (Mt:=Mt) proj dist h detected tracked cam adv add f flags B) as (r & Er & S); [congruence|].
  rewrite Er in Hk. apply S in Hk. destruct Hk as (A & X & Y). split; [lia|]. right. split; [exact Y|discriminate].
Qed.
Print Assumptions C06_points2d_exclusive.

Lemma plane_best_ok sim i flags best g k :
  plane_best sim i flags best g = Some k ->
  best = Some k \/ exists n, k = (i + n)%nat /\ nth_error flags n = Some false.
Proof.
  revert i best g. induction flags as [|b flags IH]; cbn; intros i best g H; auto.
  assert (Sk : forall best' g', plane_best sim (S i) flags best' g' = Some k ->
     best' = Some k \/ exists n, k = (i + n)%nat /\ nth_error (b :: flags) n = Some false).
  { intros best' g' X. apply IH in X. destruct X as [X|(n & -> & X)]; auto. right. exists (S n). split; [lia|exact X]. }
  destruct b; [eauto|]. destruct (sim i) as [a|]; [|eauto]. destruct (negb (Qle_bool a g)); [|eauto].
  apply Sk in H. destruct H as [H|H]; auto. injection H as <-. right. exists 0%nat. split; [lia|reflexivity].
Qed.

(** The same for planes: [sim v d i] and [area v d] stand for the geometric
    tests. *)
Theorem C06_planes_exclusive :
  forall (D Det Ctx View Mt U : Type) (p : policy D Det Ctx View Mt U)
    (sim : bool -> D -> nat -> option Q) (area : D -> bool) (mk : feat D -> nat -> Mt) hist s g v dets n,
  run p hist s g -> (g_allocs g < 2 ^ 64)%N -> s_active s = true ->
  (forall adv add f flags, p_find p v adv add dets f flags =
                           plane_find mk (sim adv (f_data f)) (area (f_data f)) add f flags) ->
  exists s' mt, get_matches p v n dets s = Ret (s', mt) /\ no_shared_claim dets s'.
Proof.
  intros D Det Ctx View Mt U p sim area mk hist s g v dets n R NW Ac Hp.
  pose proof (run_wf _ _ _ _ R NW) as W.
  apply (get_matches_claims p v dets (fun _ => None)); auto; try apply W.
  split; [discriminate|].
  intros adv add f flags k Lf Hk. rewrite Hp in Hk. unfold plane_find in Hk.
  destruct (negb (area (f_data f))); [destruct Hk|].
  destruct (plane_best (sim adv (f_data f)) 0 flags None 0%Q) as [i|] eqn:E; [|destruct Hk].
  assert (nth_error flags i = Some false).
  { apply plane_best_ok in E. destruct E as [E|(m & -> & E)]; [discriminate|exact E]. }
  assert (i < length flags)%nat by (apply nth_error_Some; congruence).
  destruct i as [|i]; [destruct Hk|]. cbn in Hk. destruct Hk as [<-|[]]. split; [lia|]. right. split; [exact H|discriminate].
Qed.
Print Assumptions C06_planes_exclusive.

(** *** Examples *)
(** Features are positions on the screen; a detection is a keypoint. The map of
    points takes keypoints with a depth, the map of 2D points the others. *)
Definition ex_proj (_ : unit) (d : Q * Q) : option (Q * Q) := Some d.
Definition ex_kp_points : policy (Q * Q) keypoint unit (handler * unit) nat unit :=
  mkPolicy point_should_add point_should_remove point_is_lost (fun _ => false) (fun _ _ => true)
    (fun v adv add dets f flags => ret_or_none (point_find ex_proj (fun _ _ => 0%N) (fun _ i => i) (fst v) tt adv add f flags))
    (fun _ d _ => (d, true)) (fun k => negb (Qle_bool (kp_depth k) 40)) (fun _ k => COk (kp_x k, kp_y k)) (fun d => Some d)
    (fun _ _ => None) 0 5 (fun _ => None).
Definition ex_kp_points2d : policy (Q * Q) keypoint unit (handler * unit) nat unit :=
  mkPolicy point_should_add point_should_remove point_is_lost (fun _ => false) (fun _ _ => true)
    (fun v adv add dets f flags => ret_or_none (point2d_find ex_proj (fun _ _ => 0%N) (fst v) tt adv add f flags))
    (fun _ d _ => (d, true)) (fun k => Qle_bool (kp_depth k) 40) (fun _ k => COk (kp_x k, kp_y k)) (fun d => Some d)
    (fun _ _ => None) 1 5 (fun _ => None).

Definition ex_kps : list keypoint := [mkKp 100 100 1000; mkKp 104 104 1000; mkKp 103 103 0].
Definition ex_kp_frame : handler := Eval vm_compute in
  match kh_set [mkKp 102 102 1000] 1 [] (kh_new 640 480) with Ret h => h | _ => kh_new 640 480 end.
Definition ex_kp_state : fstate (Q * Q) * shared := Eval vm_compute in
  match fexec ex_kp_points 5 (FAdd tt true ex_kps []) init init_shared with Ret x => x | _ => (init, init_shared) end.

(** two map points near the same single keypoint of the next frame: only one
    claims it *)
Example C06_example :
  run ex_kp_points [(FAdd tt true ex_kps [], init)] (fst ex_kp_state) (snd ex_kp_state) /\
  s_active (fst ex_kp_state) = true /\ length (s_staged (fst ex_kp_state)) = 2%nat /\
  kh_set [mkKp 102 102 1000] 1 [] (kh_new 640 480) = Ret ex_kp_frame /\
  exists s' mt, get_matches ex_kp_points (ex_kp_frame, tt) 5 [mkKp 102 102 1000] (fst ex_kp_state) = Ret (s', mt) /\
  map (fun kf => f_matches (snd kf)) (s_staged s') = [[0%nat]; []].
Proof.
  split.
  - apply (run_op ex_kp_points [] init init_shared 5%nat (FAdd tt true ex_kps [])); [now apply run_init|vm_compute; reflexivity].
  - split; [reflexivity|]. split; [reflexivity|]. split; [vm_compute; reflexivity|].
    eexists. eexists. split; [vm_compute; reflexivity|reflexivity].
Qed.

(** The guarantee does not extend to two maps: in a reachable state, the same
    keypoint is claimed by a 3D point and by a 2D point. *)
Definition ex_kp_state2d : fstate (Q * Q) * shared := Eval vm_compute in
  match fexec ex_kp_points2d 5 (FAdd tt true ex_kps []) init (snd ex_kp_state) with Ret x => x | _ => (init, init_shared) end.
Theorem C06_cross_kind_refuted :
  exists s1 s2 g s1' s2' mt f1 f2,
    sys_reachable [ex_kp_points; ex_kp_points2d] ([(ex_kp_points, s1); (ex_kp_points2d, s2)], g) /\
    kh_set [mkKp 102 102 1000] 1 [] (kh_new 640 480) = Ret ex_kp_frame /\
    lm_find (ex_kp_frame, tt) (fun _ => [mkKp 102 102 1000]) [(ex_kp_points, s1); (ex_kp_points2d, s2)]
      = Ret ([(ex_kp_points, s1'); (ex_kp_points2d, s2')], mt) /\
    In (1%N, f1) (s_staged s1') /\ In (3%N, f2) (s_staged s2') /\
    In 0%nat (f_matches f1) /\ In 0%nat (f_matches f2).
Proof.
    assert (E1 : exists s1' mt1, get_matches ex_kp_points (ex_kp_frame, tt) (p_min_features ex_kp_points) [mkKp 102 102 1000] (fst ex_kp_state) = Ret (s1', mt1)
       /\ map (fun kf => (fst kf, f_matches (snd kf))) (s_staged s1') = [(1%N, [0%nat]); (2%N, [])]).
    { eexists. eexists. split; [vm_compute; reflexivity|reflexivity]. }
    assert (E2 : exists s2' mt2, get_matches ex_kp_points2d (ex_kp_frame, tt) (p_min_features ex_kp_points2d) [mkKp 102 102 1000] (fst ex_kp_state2d) = Ret (s2', mt2)
       /\ map (fun kf => (fst kf, f_matches (snd kf))) (s_staged s2') = [(3%N, [0%nat])]).
    { eexists. eexists. split; [vm_compute; reflexivity|reflexivity]. }
    destruct E1 as (s1' & mt1 & E1 & M1), E2 as (s2' & mt2 & E2 & M2).
    destruct (s_staged s1') as [|[k1 f1] [|[k2 f2] [|]]] eqn:S1; try discriminate M1. injection M1 as -> M1 _ _.
    destruct (s_staged s2') as [|[k3 f3] [|]] eqn:S2; try discriminate M2. injection M2 as -> M2.
    exists (fst ex_kp_state), (fst ex_kp_state2d), (snd ex_kp_state2d), s1', s2', (mt1 ++ mt2 ++ []), f1, f3.
  split.
  - eapply sys_trans; [eapply sys_trans; [apply sys_refl|]|].
    + refine (sys_op [] ex_kp_points init (fst ex_kp_state) [(ex_kp_points2d, init)] init_shared (snd ex_kp_state) 5%nat (FAdd tt true ex_kps []) _).
      vm_compute. reflexivity.
    + refine (sys_op [(ex_kp_points, fst ex_kp_state)] ex_kp_points2d init (fst ex_kp_state2d) [] (snd ex_kp_state) (snd ex_kp_state2d) 5%nat (FAdd tt true ex_kps []) _).
      vm_compute. reflexivity.
  - split; [vm_compute; reflexivity|]. cbn [lm_find].
    rewrite E1. cbn [bind]. rewrite E2. cbn [bind]. rewrite S1, S2. split; [reflexivity|].
    split; [left; reflexivity|]. split; [left; reflexivity|]. rewrite M1, M2. split; now left.
Qed.
Print Assumptions C06_cross_kind_refuted.
