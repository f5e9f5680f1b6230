(** C120: how the missing measures of a depth image may be written. *)
From Coq Require Import QArith Qround Qabs ZArith List Bool Lia Lqa.
From Verif Require Import DetectionModel DetectionProofs MissingDepthModel MissingDepthSpec.
Import ListNotations.
Local Open Scope Z_scope.

Lemma Qltb_iff a b : Qltb a b = true <-> (a < b)%Q.
Proof.
  unfold Qltb. rewrite negb_true_iff. split; intro H.
  - apply Qnot_le_lt. intro C. apply Qle_bool_iff in C. congruence.
  - apply not_true_is_false. intro C. apply Qle_bool_iff in C. lra.
Qed.
Lemma missing_iff z : less zero z = false <-> missing z.
Proof.
  destruct z as [|[]|q]; cbn; try tauto; try (split; congruence).
  rewrite <- not_true_iff_false, Qltb_iff. split; [apply Qnot_lt_le|lra].
Qed.
Lemma measured_iff z : less zero z = true <-> ~ missing z.
Proof. rewrite <- missing_iff. destruct (less zero z); split; congruence. Qed.
Lemma null_iff z : less zero z = true -> (is_null z = true <-> null_measure z).
Proof.
  intros P. unfold is_null, null_measure, epsilon. destruct z as [|[]|q]; cbn in P |- *; try discriminate.
  - split; [discriminate|]. intros (q & [=] & _).
  - apply Qltb_iff in P. rewrite Qle_bool_iff. rewrite Qabs_pos by lra. split.
    + intro H. exists q. auto.
    + intros (q' & E & _ & H). injection E as ->. exact H.
Qed.
Lemma range_iff z : is_depth_valid z = true <-> in_range z.
Proof.
  unfold is_depth_valid, in_range. destruct z as [|[]|q]; cbn.
  - split; [discriminate|]. intros (q & [=] & _).
  - split; [discriminate|]. intros (q & [=] & _).
  - split; [discriminate|]. intros (q & [=] & _).
  - rewrite andb_true_iff, Qltb_iff, Qle_bool_iff. split.
    + intros H. exists q. split; auto.
    + intros (q' & E & H). injection E as ->. exact H.
Qed.
Lemma missing_not_in_range z : missing z -> ~ in_range z.
Proof. intros M (q & -> & A & _). cbn in M. lra. Qed.

Lemma in_pixels width height row column :
  In (row, column) (pixels width height) <-> (row < height)%nat /\ (column < width)%nat.
Proof. unfold pixels. rewrite in_prod_iff, !in_seq. lia. Qed.

Section All.
Context {A : Type} (width height : nat).
Lemma all_pixels_same (f g : nat -> nat -> action A) :
  (forall row column, (row < height)%nat -> (column < width)%nat -> f row column = g row column) ->
  all_pixels width height f = all_pixels width height g.
Proof.
  intros H. unfold all_pixels.
  assert (E : map (fun p => f (fst p) (snd p)) (pixels width height) = map (fun p => g (fst p) (snd p)) (pixels width height)).
  { apply map_ext_in. intros [r c] I. apply in_pixels in I. cbn. apply H; tauto. }
  rewrite E. reflexivity.
Qed.
Lemma exists_pixel (f : nat -> nat -> action A) (t : action A -> bool) :
  existsb t (map (fun p => f (fst p) (snd p)) (pixels width height)) = true <->
  exists row column, (row < height)%nat /\ (column < width)%nat /\ t (f row column) = true.
Proof.
  rewrite existsb_exists. split.
  - intros (a & I & T). apply in_map_iff in I. destruct I as ([r c] & <- & I). apply in_pixels in I. exists r, c. tauto.
  - intros (r & c & R & C & T). exists (f r c). split; auto. apply in_map_iff. exists (r, c). split; auto. apply in_pixels. auto.
Qed.
Lemma all_pixels_ended (f : nat -> nat -> action A) :
  all_pixels width height f = Ended <-> exists row column, (row < height)%nat /\ (column < width)%nat /\ f row column = Exits.
Proof.
  unfold all_pixels.
  destruct (existsb (fun a => match a with Exits => true | _ => false end) _) eqn:E.
  - split; auto. intros _. apply exists_pixel in E. destruct E as (r & c & R & C & T). exists r, c. repeat split; auto.
    destruct (f r c); congruence.
  - split.
    + cbn [existsb]. intro H. exfalso. destruct (existsb (fun a => match a with Misbehaves => true | _ => false end) _) in H; discriminate H.
    + intros (r & c & R & C & T). exfalso. apply not_true_iff_false in E. apply E. apply exists_pixel.
      exists r, c. rewrite T. auto.
Qed.
Lemma all_pixels_gives (f : nat -> nat -> action A) l :
  all_pixels width height f = Gives l ->
  forall a, In a l <-> exists row column, (row < height)%nat /\ (column < width)%nat /\ f row column = Stores a.
Proof.
  unfold all_pixels. destruct (existsb _ _); [discriminate|]. destruct (existsb _ _); [discriminate|].
  intros [= <-] a. rewrite in_flat_map. split.
  - intros (x & I & Ia). apply in_map_iff in I. destruct I as ([r c] & <- & I). apply in_pixels in I. cbn in Ia.
    exists r, c. destruct (f r c); cbn in Ia; try tauto. destruct Ia as [->|[]]. tauto.
  - intros (r & c & R & C & T). exists (f r c). split; [|rewrite T; left; auto].
    apply in_map_iff. exists (r, c). split; auto. apply in_pixels. auto.
Qed.
Lemma all_pixels_defined (f : nat -> nat -> action A) :
  (forall row column, f row column <> Misbehaves) -> all_pixels width height f <> Undefined.
Proof.
  intros H. unfold all_pixels. destruct (existsb _ _); [discriminate|].
  destruct (existsb _ _) eqn:E; [|discriminate]. apply exists_pixel in E. destruct E as (r & c & _ & _ & T).
  specialize (H r c). destruct (f r c); congruence.
Qed.
End All.

(** ** The readers do not see how a missing measure is written *)
Theorem C120_same_features :
  forall width height a b, same_measures width height a b ->
  (** the cloud of points *)
  (forall round camera_x camera_y as_float cell_map,
     organized_cloud width height round camera_x camera_y as_float cell_map a =
     organized_cloud width height round camera_x camera_y as_float cell_map b) /\
  (** the boundaries of the planes and the mask of the lines *)
  (forall row column, (row < height)%nat -> (column < width)%nat ->
     (forall round camera_x camera_y distance largest,
        add_point_if_in_plane round camera_x camera_y a distance largest row column =
        add_point_if_in_plane round camera_x camera_y b distance largest row column) /\
     has_depth a row column = has_depth b row column) /\
  (** the keypoints: what they can become, what they measure and where they are *)
  (forall p descriptor,
     let da := detect width height a p descriptor in
     let db := detect width height b p descriptor in
     can_add_point da = can_add_point db /\ can_add_point2d da = can_add_point2d db /\
     measure_of da = measure_of db /\ matched_at da = matched_at db).
Proof.
  intros width height a b S. split; [|split].
  - intros. unfold organized_cloud. apply all_pixels_same. intros row column R C. unfold cloud_pixel.
    destruct (S row column R C) as [->|[Ma Mb]]; auto.
    apply missing_iff in Ma, Mb. rewrite Ma, Mb. reflexivity.
  - intros row column R C. split.
    + intros. unfold add_point_if_in_plane. destruct (S row column R C) as [->|[Ma Mb]]; auto.
      apply missing_iff in Ma, Mb. rewrite Ma, Mb. reflexivity.
    + unfold has_depth. destruct (S row column R C) as [->|[Ma Mb]]; auto.
      apply missing_iff in Ma, Mb. congruence.
  - intros p descriptor da db.
    assert (D : depth da = depth db \/ (is_depth_valid (depth da) = false /\ is_depth_valid (depth db) = false)).
    { unfold da, db, detect. cbn [depth]. unfold MissingDepthModel.get_depth.
      destruct (in_border border_size (Z.of_nat width) (Z.of_nat height) p) eqn:B; auto.
      unfold in_border, border_size in B. rewrite !andb_true_iff in B. destruct B as [[[B1 B2] B3] B4].
      apply Qltb_iff in B3, B4. apply Qle_bool_iff in B1, B2.
      destruct (std_round_range (fst p) (Z.of_nat width)) as [X1 X2]; auto.
      destruct (std_round_range (snd p) (Z.of_nat height)) as [Y1 Y2]; auto.
      destruct (S (Z.to_nat (std_round (snd p))) (Z.to_nat (std_round (fst p)))) as [->|[Ma Mb]]; try lia; auto.
      right. apply missing_not_in_range in Ma, Mb. rewrite <- range_iff in Ma, Mb.
      split; apply not_true_is_false; auto. }
    assert (V : is_depth_valid (depth da) = is_depth_valid (depth db)) by (destruct D as [->|[-> ->]]; auto).
    unfold can_add_point, can_add_point2d, measure_of, matched_at. rewrite V.
    repeat split; try reflexivity. destruct D as [D|[D1 D2]].
    + rewrite D. reflexivity.
    + rewrite D2. reflexivity.
Qed.
Print Assumptions C120_same_features.

(** The cloud holds the pixels with a measure, and only them; the program ends when a measure is
    too near of zero. *)
Theorem C120_cloud :
  forall width height round camera_x camera_y as_float cell_map img,
  let cloud := organized_cloud width height round camera_x camera_y as_float cell_map img in
  (cloud = Ended <-> exists row column, (row < height)%nat /\ (column < width)%nat /\ null_measure (img row column)) /\
  cloud <> Undefined /\
  (forall points, cloud = Gives points -> forall id x y z,
     In (id, (x, y, z)) points <->
     exists row column, (row < height)%nat /\ (column < width)%nat /\ ~ missing (img row column) /\
       id = cell_map row column /\ z = img row column /\
       x = as_float (mul round z (camera_x column row)) /\ y = as_float (mul round z (camera_y column row))).
Proof.
  intros. unfold cloud, organized_cloud. split; [|split].
  - rewrite all_pixels_ended. split; intros (r & c & R & C & H); exists r, c; repeat split; auto.
    + unfold cloud_pixel, to_camera in H. destruct (less zero (img r c)) eqn:P; [|discriminate].
      destruct (is_null (img r c)) eqn:N; [|discriminate]. apply null_iff; auto.
    + unfold cloud_pixel, to_camera. assert (P : less zero (img r c) = true).
      { destruct H as (q & -> & P & _). cbn. apply Qltb_iff. exact P. }
      rewrite P. apply (null_iff _ P) in H. rewrite H. reflexivity.
  - apply all_pixels_defined. intros r c. unfold cloud_pixel. destruct (less _ _); [|discriminate].
    destruct (to_camera _ _ _ _ _ _) as [[[? ?] ?]|]; discriminate.
  - intros points G id x y z. rewrite (all_pixels_gives _ _ _ _ G). split; intros (r & c & R & C & H); exists r, c; repeat split; auto.
    1-5: unfold cloud_pixel, to_camera in H; destruct (less zero (img r c)) eqn:P; [|discriminate];
         destruct (is_null (img r c)); [discriminate|]; injection H as <- <- <- <-; auto; apply measured_iff; auto.
    destruct H as (M & -> & -> & -> & ->). unfold cloud_pixel, to_camera. apply measured_iff in M. rewrite M.
    destruct (is_null (img r c)) eqn:N; auto. exfalso.
    assert (E : all_pixels width height (cloud_pixel round camera_x camera_y as_float cell_map img) = Ended).
    { apply all_pixels_ended. exists r, c. repeat split; auto. unfold cloud_pixel, to_camera. rewrite M, N. reflexivity. }
    congruence.
Qed.
Print Assumptions C120_cloud.

(** A keypoint is used as a point exactly when the pixel under it is in the range of the camera. *)
Theorem C120_keypoint :
  forall width height img p descriptor,
  let d := detect width height img p descriptor in
  let row := Z.to_nat (std_round (snd p)) in
  let column := Z.to_nat (std_round (fst p)) in
  (measure_of d = Point p (img row column) /\ in_range (img row column) /\
   (1 <= fst p < inject_Z (Z.of_nat width - 1))%Q /\ (1 <= snd p < inject_Z (Z.of_nat height - 1))%Q \/
   measure_of d = Ray p /\
   ((1 <= fst p < inject_Z (Z.of_nat width - 1))%Q -> (1 <= snd p < inject_Z (Z.of_nat height - 1))%Q ->
    ~ in_range (img row column))) /\
  (can_add_point d = true <-> descriptor = true /\ exists z, measure_of d = Point p z) /\
  (can_add_point2d d = true <-> descriptor = true /\ measure_of d = Ray p).
Proof.
  intros.
  assert (X : forall q, measure_of d = Point p q -> is_depth_valid (depth d) = true /\ depth d = q).
  { intros q. unfold measure_of. destruct (is_depth_valid (depth d)); [|discriminate]. intros [= <-]. auto. }
  split; [|split].
  - unfold measure_of. destruct (is_depth_valid (depth d)) eqn:V.
    + left. apply range_iff in V. unfold d, detect in V |- *. cbn [depth seen_at] in V |- *. unfold MissingDepthModel.get_depth in V |- *.
      destruct (in_border _ _ _ p) eqn:B.
      * unfold in_border, border_size in B. rewrite !andb_true_iff in B. destruct B as [[[B1 B2] B3] B4].
        apply Qltb_iff in B3, B4. apply Qle_bool_iff in B1, B2. repeat split; auto.
      * exfalso. destruct V as (q & E & A & _). injection E as <-. lra.
    + right. split; auto. intros [A1 A2] [B1 B2] I. apply range_iff in I.
      unfold d, detect in V. cbn [depth] in V. unfold MissingDepthModel.get_depth in V.
      assert (B : in_border border_size (Z.of_nat width) (Z.of_nat height) p = true).
      { unfold in_border, border_size. rewrite !andb_true_iff, !Qle_bool_iff, !Qltb_iff. auto. }
      rewrite B in V. fold row column in V. congruence.
  - unfold can_add_point. rewrite andb_true_iff. cbn [has_descriptor d detect]. split.
    + intros [H V]. split; auto. exists (depth d). unfold measure_of. rewrite V. reflexivity.
    + intros [H [z E]]. apply X in E. tauto.
  - unfold can_add_point2d. rewrite andb_true_iff, negb_true_iff. cbn [has_descriptor d detect]. unfold measure_of.
    fold d. destruct (is_depth_valid (depth d)); split; intros [H V]; split; auto; congruence.
Qed.
Print Assumptions C120_keypoint.

(** ** The rectification *)
Definition finite (a : num) : Prop := exists q, a = Finite q.
Lemma mul_infinite round a b : ~ finite b -> ~ finite (mul round a b).
Proof.
  intros H (q & E). destruct a as [|n|p], b as [|m|r]; cbn in E; try discriminate; try (apply H; eexists; reflexivity).
  destruct (Qeq_bool p 0); discriminate.
Qed.
Lemma mul_infinite_l round a b : ~ finite a -> ~ finite (mul round a b).
Proof.
  intros H (q & E). destruct a as [|n|p], b as [|m|r]; cbn in E; try discriminate; try (apply H; eexists; reflexivity).
  destruct (Qeq_bool r 0); discriminate.
Qed.
Lemma add_infinite_l round a b : ~ finite a -> ~ finite (add round a b).
Proof.
  intros H (q & E). destruct a as [|n|p], b as [|m|r]; cbn in E; try discriminate; try (apply H; eexists; reflexivity).
  destruct (Bool.eqb n m); discriminate.
Qed.
Lemma add_infinite_r round a b : ~ finite b -> ~ finite (add round a b).
Proof.
  intros H (q & E). destruct a as [|n|p], b as [|m|r]; cbn in E; try discriminate; try (apply H; eexists; reflexivity).
  destruct (Bool.eqb n m); discriminate.
Qed.
Lemma dot3_infinite round k x y z : ~ finite z -> ~ finite (dot3 round k x y z).
Proof. intros H. destruct k as [[a b] c]. apply add_infinite_r, mul_infinite, H. Qed.
Lemma inverse_times round a b : ~ finite a -> ~ finite b -> mul round (inverse round a) b = NaN.
Proof.
  intros A B. destruct a as [|n|q]; [reflexivity| |exfalso; apply A; eexists; reflexivity].
  destruct b as [|m|r]; [reflexivity|reflexivity|exfalso; apply B; eexists; reflexivity].
Qed.

Section Rectified.
Variables (width height : nat) (round round_float : Q -> num) (pre_x pre_y : nat -> nat -> num).
Variables (m0 m1 m2 : (num * num * num) * num) (k0 k1 : num * num * num).
Let rectified := rectify width height round round_float pre_x pre_y m0 m1 m2 k0 k1.

(** Images with the same measures and without a pixel that is not a number are rectified in the
    same way. *)
Theorem C120_same_rectified :
  forall a b, same_measures width height a b ->
  (forall row column, (row < height)%nat -> (column < width)%nat -> a row column <> NaN /\ b row column <> NaN) ->
  rectified a = rectified b.
Proof.
  intros a b S N. apply all_pixels_same. intros r c R C. unfold rectify_pixel.
  destruct (N r c R C) as [Na Nb]. destruct (S r c R C) as [->|[Ma Mb]]; auto.
  assert (H : forall z, missing z -> z <> NaN -> less_eq z zero = true).
  { intros [|[]|q]; cbn; try congruence. intros L _. apply Qle_bool_iff. exact L. }
  rewrite !H by assumption. reflexivity.
Qed.
(** One pixel that is not a number or is infinite ends the program, whatever the cameras. *)
Theorem C120_rectified_nan_refuted :
  forall img, (exists row column, (row < height)%nat /\ (column < width)%nat /\ not_a_depth (img row column)) ->
  rectified img = Ended.
Proof.
  intros img (r & c & R & C & H). apply all_pixels_ended. exists r, c. repeat split; auto. unfold rectify_pixel.
  assert (F : ~ finite (img r c)). { intros (q & E). destruct H; congruence. }
  assert (L : less_eq (img r c) zero = false) by (destruct H as [-> | ->]; reflexivity).
  rewrite L.
  assert (P : forall m x y, ~ finite (moved round m x y (img r c))).
  { intros m x y. apply add_infinite_l, dot3_infinite, F. }
  rewrite !inverse_times by (try apply dot3_infinite; apply P). reflexivity.
Qed.
End Rectified.
Print Assumptions C120_same_rectified.
Print Assumptions C120_rectified_nan_refuted.

(** ** Examples *)
Definition exact (q : Q) : num := Finite q.
(** an image of three columns: not a number, one meter, and a missing measure *)
Definition with_nan : image := fun _ c => match c with 0%nat => NaN | 1%nat => Finite 1000 | _ => Finite (-1) end.
Definition with_zero : image := fun _ c => match c with 1%nat => Finite 1000 | _ => Finite 0 end.
Example C120_same_measures_example : same_measures 3 1 with_nan with_zero.
Proof. intros r [|[|[|c]]] R C; try lia; cbn; auto; right; split; auto; lra. Qed.
Example C120_cloud_example :
  organized_cloud 3 1 exact (fun _ _ => Finite 1) (fun _ _ => Finite 2) (fun x => x) (fun r c => Z.of_nat c) with_nan =
  Gives [(1, (Finite 1000, Finite 2000, Finite 1000))].
Proof. vm_compute. reflexivity. Qed.
Example C120_null_example :
  organized_cloud 3 1 exact (fun _ _ => Finite 1) (fun _ _ => Finite 2) (fun x => x) (fun r c => Z.of_nat c)
    (fun _ c => if Nat.eqb c 1 then Finite (1 # (2 ^ 60)) else Finite 0) = Ended.
Proof. vm_compute. reflexivity. Qed.
Definition row (a b c d : Q) := ((Finite a, Finite b, Finite c), Finite d).
Example C120_rectified_example :
  let rectified := rectify 3 3 exact exact (fun _ _ => Finite 0) (fun _ _ => Finite 0)
    (row 1 0 0 0) (row 0 1 0 0) (row 0 0 1 0) (Finite 1, Finite 0, Finite 1) (Finite 0, Finite 1, Finite 2) in
  rectified (fun r c => if Nat.eqb r c then with_zero 0%nat c else Finite 0) = Gives [(2, 1, Finite 1000)] /\
  rectified (fun r c => if Nat.eqb r c then with_nan 0%nat c else Finite 0) = Ended.
Proof. vm_compute. split; reflexivity. Qed.
Example C120_keypoint_example :
  measure_of (detect 640 480 (fun r c => Finite 1000) (5, 7)%Q true) = Point (5, 7)%Q (Finite 1000) /\
  measure_of (detect 640 480 (fun r c => NaN) (5, 7)%Q true) = Ray (5, 7)%Q /\
  measure_of (detect 640 480 (fun r c => Finite 1000) (0, 7)%Q true) = Ray (0, 7)%Q.
Proof. vm_compute. repeat split; reflexivity. Qed.
