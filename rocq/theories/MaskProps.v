(** The search of new keypoints around the tracked ones (C110). *)
From Verif Require Import KeypointModel DetectionModel DetectionProofs DetectionProps MaskModel MaskSpec.
From Coq Require Import ZifyBool ZifyNat Lqa Qabs.
Local Open Scope Z_scope.

Section Props.
Variables (disc : Z * Z -> Z -> Z -> Z -> bool) (inner outer : Z).
Hypothesis laws : disc_laws disc 15 inner outer.
Variables (width height : Z).
Hypothesis sizes : 0 <= width /\ 0 <= height.
Let searches := searches disc width height.
Let compute_mask := compute_mask disc.

Lemma draw_all_white : forall tracked m x y,
  mk_white (fold_left (draw_disc disc) tracked m) x y = mk_white m x y && forallb (fun t => negb (disc (pixel_of t) 15 x y)) tracked.
Proof.
  induction tracked as [|t l IH]; intros m x y; cbn [fold_left forallb]; [now rewrite andb_true_r|]. rewrite IH. cbn [draw_disc mk_white]. unfold mask_radius, pixel_of.
  destruct (disc _ 15 x y); cbn; [now rewrite andb_false_r|reflexivity].
Qed.
Lemma draw_all_size : forall tracked m, mk_cols (fold_left (draw_disc disc) tracked m) = mk_cols m /\ mk_rows (fold_left (draw_disc disc) tracked m) = mk_rows m.
Proof. induction tracked as [|t l IH]; intros m; cbn [fold_left]; [auto|]. destruct (IH (draw_disc disc m t)) as [-> ->]. auto. Qed.
Lemma mask_white before cols rows garbage tracked x y :
  mk_white (compute_mask before cols rows garbage tracked) x y = forallb (fun t => negb (disc (pixel_of t) 15 x y)) tracked.
Proof. unfold compute_mask, MaskModel.compute_mask. rewrite draw_all_white. reflexivity. Qed.
Lemma mask_size before cols rows garbage tracked : (forall m, before = Some m -> mk_cols m = cols /\ mk_rows m = rows) ->
  mk_cols (compute_mask before cols rows garbage tracked) = cols /\ mk_rows (compute_mask before cols rows garbage tracked) = rows.
Proof.
  intros B. unfold compute_mask, MaskModel.compute_mask. destruct (draw_all_size tracked (set_white (match before with Some m => m | None => allocate cols rows garbage end))) as [-> ->].
  destruct before as [m|]; [exact (B m eq_refl)|auto].
Qed.
Lemma windows_readable i : (i < 9)%nat -> roi_ok (window width height i) width height = true.
Proof.
  intros I. destruct sizes as [W H]. unfold roi_ok, window. cbn [re_x re_y re_w re_h]. change (Z.of_nat window_cols) with 3. change (Z.of_nat window_rows) with 3. change window_cols with 3%nat.
  pose proof (Z.div_mod width 3 ltac:(lia)). pose proof (Z.div_mod height 3 ltac:(lia)). pose proof (Z.mod_pos_bound width 3 ltac:(lia)). pose proof (Z.mod_pos_bound height 3 ltac:(lia)).
  pose proof (Nat.div_mod i 3 ltac:(lia)). set (a := (i mod 3)%nat) in *. set (b := (i / 3)%nat) in *. pose proof (Nat.mod_upper_bound i 3 ltac:(lia)). fold a in H5.
  assert (Z.of_nat b <= 2) by lia. assert (Z.of_nat a <= 2) by lia.
  assert (0 <= width / 3) by lia. assert (0 <= height / 3) by lia. set (u := width / 3) in *. set (v := height / 3) in *. clearbody a b u v.
  assert (Z.of_nat a * u <= 2 * u) by (apply Z.mul_le_mono_nonneg_r; lia). assert (Z.of_nat b * v <= 2 * v) by (apply Z.mul_le_mono_nonneg_r; lia).
  assert (0 <= Z.of_nat a * u) by (apply Z.mul_nonneg_nonneg; lia). assert (0 <= Z.of_nat b * v) by (apply Z.mul_nonneg_nonneg; lia). lia.
Qed.
(** the corners of a window that are not on a disc *)
Definition off (f : picture) (i : nat) (l : list cvkp) : list cvkp :=
  filter (fun k => forallb (fun t => negb (disc (pixel_of t) 15 (re_x (window width height i) + k_x k) (re_y (window width height i) + k_y k))) (pi_tracked f)) l.
Definition visible (f : picture) (i : nat) : window_oracle := mkWO (off f i (wo_detect (pi_corners f i))) (off f i (wo_advanced (pi_corners f i))).
Lemma detect_ext o o' tracked schedule : (forall i, o i = o' i) -> detect_with width height tracked o schedule = detect_with width height tracked o' schedule.
Proof.
  intros E. unfold detect_with.
  assert (R : forall sch s, fold_left (fun s i => d_step (fun i => window_result (window width height i) (window_counter width height tracked i) (o i)) i s) sch s =
                            fold_left (fun s i => d_step (fun i => window_result (window width height i) (window_counter width height tracked i) (o' i)) i s) sch s).
  { induction sch as [|i l IH]; intros s; [reflexivity|]. cbn [fold_left]. rewrite IH. unfold d_step. now rewrite E. }
  unfold d_run. now rewrite R.
Qed.
Lemma one_search before garbage f : usable width height f -> (forall m, before = Some m -> mk_cols m = width /\ mk_rows m = height) ->
  exists m l, perform_detection disc width height garbage before f = Found (m, l) /\ mk_cols m = width /\ mk_rows m = height /\
    detect_with width height (pi_tracked f) (visible f) (pi_schedule f) = Some l.
Proof.
  intros [[C R] S K _ _] B. unfold perform_detection. fold compute_mask. rewrite C, R in *.
  destruct (mask_size before width height garbage (pi_tracked f) B) as [Mc Mr]. set (m := compute_mask before width height garbage (pi_tracked f)) in *.
  assert (A : forallb (fun i => if N.ltb (window_counter width height (pi_tracked f) i) max_by_cell then roi_ok (window width height i) width height && roi_ok (window width height i) (mk_cols m) (mk_rows m) else true) (seq 0 window_count) = true).
  { apply forallb_forall. intros i I. apply in_seq in I. rewrite Mc, Mr, windows_readable by (unfold window_count in I; lia). now destruct (N.ltb _ _). }
  rewrite A.
  assert (E : detect_with width height (pi_tracked f) (fun i => masked m (window width height i) (pi_corners f i)) (pi_schedule f) = detect_with width height (pi_tracked f) (visible f) (pi_schedule f)).
  { apply detect_ext. intros i. unfold masked, visible, run_by_mask, off. f_equal; apply filter_ext; intros k; apply mask_white. }
  rewrite E. destruct (detect_with width height (pi_tracked f) (visible f) (pi_schedule f)) as [l|] eqn:D.
  - exists m, l. auto.
  - destruct (C18_every_complete_schedule_ends width height (pi_tracked f) (visible f) (pi_schedule f) S D).
Qed.
Lemma all_searches garbage : forall fs before, Forall (usable width height) fs -> (forall m, before = Some m -> mk_cols m = width /\ mk_rows m = height) ->
  exists rs, searches garbage before fs = Found rs /\
    Forall2 (fun f r => detect_with width height (pi_tracked f) (visible f) (pi_schedule f) = Some (fst r) /\ snd r = new_points f (fst r)) fs rs.
Proof.
  induction fs as [|f fs IH]; intros before F B; [exists []; split; [reflexivity|constructor]|]. inversion F as [|? ? U V]; subst.
  destruct (one_search before garbage f U B) as (m & l & E & C & R & D).
  destruct (IH (Some m) V) as (rs & Er & Fr); [intros m' [= <-]; auto|].
  exists ((l, new_points f l) :: rs). split; [|constructor; auto]. cbn. rewrite E. change (MaskModel.searches disc width height) with searches. now rewrite Er.
Qed.
(** The search works on every image of every session of images of the size of the parameters, and
    its result does not depend on the images before nor on the memory of the first mask. *)
Theorem C110_no_memory : forall garbage garbage' fs, Forall (usable width height) fs ->
  exists rs, searches garbage None fs = Found rs /\ Forall2 (fun f r => searches garbage' None [f] = Found [r]) fs rs.
Proof.
  intros g g' fs F. destruct (all_searches g fs None F) as (rs & E & H); [discriminate|]. exists rs. split; [exact E|].
  clear E. induction H as [|f r fs rs [D N] H IH]; constructor; [|inversion F; auto]. inversion F as [|? ? U V]; subst.
  destruct (all_searches g' [f] None) as (rs' & E & H'); [auto|discriminate|]. rewrite E. f_equal. inversion H' as [|? ? ? ? [D' N'] H2]; subst. inversion H2; subst. rewrite D in D'. injection D' as D'. f_equal.
  destruct r as [l ps], y as [l' ps']. cbn in *. now subst.
Qed.
Lemma detected_off f l : usable width height f -> detect_with width height (pi_tracked f) (visible f) (pi_schedule f) = Some l ->
  forall k, In k l -> forall t, In t (pi_tracked f) -> disc (pixel_of t) 15 (k_x k) (k_y k) = false.
Proof.
  intros U D k I t T. apply detect_some in D as [-> P]; [|apply (us_schedule _ _ _ U)].
  apply remove_duplicated_spec in I as [I _]. apply (Permutation_in _ P) in I. apply in_concat in I as (r & Ir & Ik). apply in_map_iff in Ir as (i & <- & Ii).
  unfold result_of, window_result in Ik. destruct (N.ltb _ _); [|destruct Ik]. apply in_map_iff in Ik as (k0 & <- & Ik). apply retain_best_incl in Ik.
  assert (O : In k0 (off f i (wo_detect (pi_corners f i))) \/ In k0 (off f i (wo_advanced (pi_corners f i)))) by (cbn [visible wo_detect wo_advanced] in Ik; destruct (Nat.ltb _ _); auto).
  assert (Q : forallb (fun t => negb (disc (pixel_of t) 15 (re_x (window width height i) + k_x k0) (re_y (window width height i) + k_y k0))) (pi_tracked f) = true) by (destruct O as [O|O]; apply filter_In in O as [_ O]; exact O).
  rewrite forallb_forall in Q. specialize (Q t T). unfold shift. cbn [k_x k_y]. rewrite (Z.add_comm (k_x k0)), (Z.add_comm (k_y k0)). now destruct (disc _ _ _ _).
Qed.
Lemma cv_round_near q : (Qabs (q - inject_Z (cv_round q)) <= 1 # 2)%Q.
Proof.
  unfold cv_round. pose proof (Qfloor_le q) as L. pose proof (Qlt_floor q) as U. rewrite inject_Z_plus in U. change (inject_Z 1) with 1%Q in U.
  apply Qabs_Qle_condition. destruct (Qcompare _ _) eqn:E.
  - apply Qeq_alt in E. destruct (Z.even _); rewrite ?inject_Z_plus; change (inject_Z 1) with 1%Q; split; lra.
  - apply Qlt_alt in E. split; lra.
  - apply Qgt_alt in E. rewrite inject_Z_plus. change (inject_Z 1) with 1%Q. split; lra.
Qed.
Lemma farther a b t p (A : (Qabs (t - inject_Z a) <= 1 # 2)%Q) (B : (Qabs (p - inject_Z b) <= 3)%Q) :
  (inject_Z ((a - b) * (a - b)) <= (Qabs (t - p) + (7 # 2)) * (Qabs (t - p) + (7 # 2)))%Q.
Proof.
  apply Qabs_Qle_condition in A as [A1 A2]. apply Qabs_Qle_condition in B as [B1 B2]. rewrite inject_Z_mult.
  assert (E : (inject_Z (a - b) == inject_Z a - inject_Z b)%Q) by (unfold Z.sub; now rewrite inject_Z_plus, inject_Z_opp). rewrite E.
  pose proof (Qle_Qabs (t - p)) as C. assert (D : (- (t - p) <= Qabs (t - p))%Q) by (rewrite <- Qabs_opp; apply Qle_Qabs). pose proof (Qabs_nonneg (t - p)) as N.
  set (v := Qabs (t - p)) in *. clearbody v. set (x := inject_Z a) in *. set (y := inject_Z b) in *. clearbody x y. clear E. nra.
Qed.
(** A new point is detected farther than [inner] from the pixel of each tracked point; the point
    given after the refinement may be three pixels and a half nearer in each direction. *)
Theorem C110_away : forall garbage fs, Forall (usable width height) fs -> exists rs, searches garbage None fs = Found rs /\
  Forall2 (fun f r => forall t, In t (pi_tracked f) ->
    (forall k, In k (fst r) -> inner * inner < square_distance (pixel_of t) (k_x k, k_y k)) /\
    forall p, In p (snd r) ->
      (inject_Z (inner * inner) < (Qabs (fst t - fst p) + (7 # 2)) * (Qabs (fst t - fst p) + (7 # 2)) +
                                  (Qabs (snd t - snd p) + (7 # 2)) * (Qabs (snd t - snd p) + (7 # 2)))%Q) fs rs.
Proof.
  intros g fs F. destruct (all_searches g fs None F) as (rs & E & H); [discriminate|]. exists rs. split; [exact E|].
  clear E. induction H as [|f r fs rs [D N] H IH]; constructor; [|inversion F; auto]. inversion F as [|? ? U V]; subst. intros t T.
  assert (K : forall k, In k (fst r) -> inner * inner < square_distance (pixel_of t) (k_x k, k_y k)).
  { intros k I. pose proof (detected_off f (fst r) U D k I t T) as O. destruct (Z_lt_le_dec (inner * inner) (square_distance (pixel_of t) (k_x k, k_y k))) as [L|L]; [exact L|].
    rewrite (disc_inner _ _ _ _ laws) in O by exact L. discriminate. }
  split; [exact K|]. intros p P. destruct r as [rl rp]. cbn [fst snd] in D, N, K, P. subst rp. unfold new_points in P. destruct rl as [|k0 l]; [destruct P|]. set (rl := k0 :: l) in *. clearbody rl.
  apply (us_describe _ _ _ U) in P. apply (us_refine _ _ _ U) in P as (q & Q & Q1 & Q2). apply in_map_iff in Q as (k & <- & Q). specialize (K k Q). cbn [fst snd] in *.
  unfold square_distance, pixel_of in K. cbn [fst snd] in K. rewrite Zlt_Qlt, inject_Z_plus in K.
  pose proof (farther _ _ _ _ (cv_round_near (fst t)) Q1). pose proof (farther _ _ _ _ (cv_round_near (snd t)) Q2). lra.
Qed.
Lemma fewer {A} (p q : A -> bool) l : (length (filter p (filter q l)) <= length (filter p l))%nat.
Proof. induction l as [|a l IH]; cbn; [lia|]. destruct (q a); cbn; destruct (p a); cbn; lia. Qed.
(** A corner of a window which both detectors find, farther than [outer] from the tracked
    points, is detected (or another one at its place with at least its score), unless as many
    corners as the window still needs have a better score. *)
Theorem C110_found : forall garbage fs, Forall (usable width height) fs -> exists rs, searches garbage None fs = Found rs /\
  Forall2 (fun f r => forall i k, (i < 9)%nat ->
    let x := k_x k + Z.of_nat (i mod 3) * (width / 3) in
    let y := k_y k + Z.of_nat (i / 3) * (height / 3) in
    let better l := length (filter (fun k' => (k_resp k <? k_resp k')%Z) l) in
    In k (wo_detect (pi_corners f i)) -> In k (wo_advanced (pi_corners f i)) ->
    (forall t, In t (pi_tracked f) -> outer * outer < square_distance (pixel_of t) (x, y)) ->
    (better (wo_detect (pi_corners f i)) + tracked_in width height i (pi_tracked f) < 11)%nat ->
    (better (wo_advanced (pi_corners f i)) + tracked_in width height i (pi_tracked f) < 11)%nat ->
    exists k', In k' (fst r) /\ k_x k' = x /\ k_y k' = y /\ k_resp k <= k_resp k') fs rs.
Proof.
  intros g fs F. destruct (all_searches g fs None F) as (rs & E & H); [discriminate|]. exists rs. split; [exact E|].
  clear E. induction H as [|f r fs rs [D N] H IH]; constructor; [|inversion F; auto]. inversion F as [|? ? U V]; subst. cbv zeta. intros i k Hi I1 I2 Far B1 B2.
  assert (O : forall l, In k l -> In k (off f i l)).
  { intros l I. apply filter_In. split; [exact I|]. apply forallb_forall. intros t T. specialize (Far t T).
    replace (re_x (window width height i) + k_x k) with (k_x k + Z.of_nat (i mod 3) * (width / 3)) by (unfold window; cbn [re_x]; apply Z.add_comm).
    replace (re_y (window width height i) + k_y k) with (k_y k + Z.of_nat (i / 3) * (height / 3)) by (unfold window; cbn [re_y]; apply Z.add_comm).
    destruct (disc _ _ _ _) eqn:E; [|reflexivity]. apply (disc_outer _ _ _ _ laws) in E. lia. }
  apply (C18_best_points_reported width height (pi_tracked f) (visible f) (pi_schedule f) (fst r) i k); try tauto.
  - apply (us_schedule _ _ _ U).
  - eapply Nat.le_lt_trans; [|exact B1]. apply Nat.le_add_l.
  - cbn [visible wo_detect wo_advanced]. destruct (Nat.ltb _ _); apply O; assumption.
  - cbn [visible wo_detect wo_advanced]. destruct (Nat.ltb _ _).
    + pose proof (fewer (fun k' => k_resp k <? k_resp k')%Z (fun k => forallb (fun t => negb (disc (pixel_of t) 15 (re_x (window width height i) + k_x k) (re_y (window width height i) + k_y k))) (pi_tracked f)) (wo_advanced (pi_corners f i))) as L. unfold off. eapply Nat.le_lt_trans; [exact L|]. apply Nat.lt_add_lt_sub_r. exact B2.
    + pose proof (fewer (fun k' => k_resp k <? k_resp k')%Z (fun k => forallb (fun t => negb (disc (pixel_of t) 15 (re_x (window width height i) + k_x k) (re_y (window width height i) + k_y k))) (pi_tracked f)) (wo_detect (pi_corners f i))) as L. unfold off. eapply Nat.le_lt_trans; [exact L|]. apply Nat.lt_add_lt_sub_r. exact B1.
Qed.
(** An image which does not contain the windows made from the parameters ends the program. *)
Theorem C110_small_image : forall garbage f fs, pi_tracked f = [] ->
  pi_cols f < width - width mod 3 \/ pi_rows f < height - height mod 3 -> searches garbage None (f :: fs) = Terminates.
Proof.
  intros g f fs T S. unfold searches. cbn [MaskModel.searches]. unfold perform_detection. rewrite T.
  assert (A : forallb (fun i => if N.ltb (window_counter width height [] i) max_by_cell then roi_ok (window width height i) (pi_cols f) (pi_rows f) && roi_ok (window width height i) (mk_cols (MaskModel.compute_mask disc None (pi_cols f) (pi_rows f) g [])) (mk_rows (MaskModel.compute_mask disc None (pi_cols f) (pi_rows f) g [])) else true) (seq 0 window_count) = false).
  { apply not_true_is_false. intros A. rewrite forallb_forall in A. specialize (A 8%nat). cbn [window_counter fold_left] in A. change (N.ltb 0 max_by_cell) with true in A. cbv iota in A.
    assert (I : In 8%nat (seq 0 window_count)) by (apply in_seq; unfold window_count; lia). apply A in I. apply andb_true_iff in I as [I _].
    unfold roi_ok, window in I. cbn [re_x re_y re_w re_h] in I. change (Z.of_nat window_cols) with 3 in I. change (Z.of_nat window_rows) with 3 in I. change (Z.of_nat (8 mod window_cols)) with 2 in I. change (Z.of_nat (8 / window_cols)) with 2 in I.
    pose proof (Z.div_mod width 3 ltac:(lia)). pose proof (Z.div_mod height 3 ltac:(lia)). lia. }
  now rewrite A.
Qed.
End Props.
Print Assumptions C110_no_memory.
Print Assumptions C110_away.
Print Assumptions C110_found.
Print Assumptions C110_small_image.

(** ** Example: exact discs, one tracked point and a corner just out of its disc *)
Definition exact_disc (c : Z * Z) (radius x y : Z) : bool := square_distance c (x, y) <=? radius * radius.
Lemma exact_laws : disc_laws exact_disc 15 15 15.
Proof. split; intros c x y; unfold exact_disc; lia. Qed.
Definition corners (i : nat) : window_oracle :=
  if Nat.eqb i 0 then mkWO [mkCvkp 116 100 50; mkCvkp 115 100 90] [mkCvkp 116 100 50; mkCvkp 115 100 90] else mkWO [] [].
Definition moved_left (l : list (Z * Z)) : list pt := map (fun q => ((inject_Z (fst q) - 3)%Q, inject_Z (snd q))) l.
Definition one_picture : picture := mkPicture 640 480 [(100%Q, 100%Q)] corners (concat (map (fun i => [i; i]) (seq 0 9))) moved_left (fun l => l).
Example C110_example : usable 640 480 one_picture /\ exists p,
  searches exact_disc 640 480 (fun _ _ => false) None [one_picture; one_picture] = Found [([mkCvkp 116 100 50], [p]); ([mkCvkp 116 100 50], [p])] /\ (fst p == 113)%Q /\ (snd p == 100)%Q.
Proof.
  split; [split|].
  - split; reflexivity.
  - split; [intros i; cbn; lia|]. intros i I. do 9 (destruct i as [|i]; [vm_compute; lia|]). lia.
  - intros i I k. cbn [pi_corners one_picture]. unfold corners. destruct (Nat.eqb_spec i 0) as [->|]; [|intros []].
    change (re_w (window 640 480 0)) with 213. change (re_h (window 640 480 0)) with 160. cbn. intros H. repeat (destruct H as [<-|H]; [cbn; lia|]). destruct H.
  - intros l p I. apply in_map_iff in I as (q & <- & I). exists q. split; [exact I|]. cbn [fst snd]. split; apply Qabs_Qle_condition; split; lra.
  - intros l p I. exact I.
  - eexists. split; [vm_compute; reflexivity|]. split; reflexivity.
Qed.
(** The point given can be nearer than the radius: here at 13 pixels of the tracked one. *)
Theorem C110_radius_refuted : exists f l p t, usable 640 480 f /\ searches exact_disc 640 480 (fun _ _ => false) None [f] = Found [(l, [p])] /\ In t (pi_tracked f) /\
  ((fst t - fst p) * (fst t - fst p) + (snd t - snd p) * (snd t - snd p) < 15 * 15)%Q.
Proof.
  destruct C110_example as [U (p & E & P1 & P2)]. exists one_picture, [mkCvkp 116 100 50], p, (100%Q, 100%Q). split; [exact U|]. split.
  - cbn [searches] in E |- *. destruct (perform_detection exact_disc 640 480 (fun _ _ => false) None one_picture) as [[m l]| |]; try discriminate.
    cbn [searches] in E. destruct (perform_detection exact_disc 640 480 (fun _ _ => false) (Some m) one_picture) as [[m' l']| |]; try discriminate. injection E as -> E _ _. now rewrite E.
  - split; [now left|]. cbn [fst snd]. rewrite P1, P2. reflexivity.
Qed.
Print Assumptions C110_radius_refuted.
