(** The lines found at several scales: places, numbers and mask. *)
From Verif Require Import OctaveModel OctaveSpec.
From Coq Require Import ZArith QArith Qround Lqa List Bool Arith Lia ZifyBool ZifyNat.
Import ListNotations.
Local Open Scope Z_scope.

Lemma qlt_lt a b : qlt a b = true <-> (a < b)%Q.
Proof. unfold qlt. rewrite negb_true_iff. split; intros H.
  - apply Qnot_le_lt. intros L. apply Qle_bool_iff in L. congruence.
  - destruct (Qle_bool b a) eqn:E; [|reflexivity]. apply Qle_bool_iff in E. lra.
Qed.

Lemma check_in x size : 0 < size -> (0 <= check_extreme x size)%Q /\ (check_extreme x size < inject_Z size)%Q.
Proof.
  intros S. unfold check_extreme.
  assert (S1 : (1 <= inject_Z size)%Q) by (change 1%Q with (inject_Z 1); rewrite <- Zle_Qle; lia).
  destruct (qlt x 0) eqn:E; cbv zeta.
  - destruct (Qle_bool (inject_Z size) 0) eqn:F; [apply Qle_bool_iff in F; lra|]. split; lra.
  - destruct (Qle_bool (inject_Z size) x) eqn:F.
    + split; lra.
    + split; apply Qnot_lt_le || apply Qnot_le_lt; intros L.
      * apply qlt_lt in L. congruence.
      * apply Qle_bool_iff in L. congruence.
Qed.

Lemma check_brought x size : 0 < size -> brought x size (check_extreme x size).
Proof.
  intros S. unfold brought, check_extreme.
  assert (S1 : (1 <= inject_Z size)%Q) by (change 1%Q with (inject_Z 1); rewrite <- Zle_Qle; lia).
  repeat split; intros.
  - destruct (qlt x 0) eqn:E; [apply qlt_lt in E; lra|]. cbv zeta.
    destruct (Qle_bool (inject_Z size) x) eqn:F; [apply Qle_bool_iff in F; lra|reflexivity].
  - assert (qlt x 0 = true) as -> by now apply qlt_lt. cbv zeta.
    destruct (Qle_bool (inject_Z size) 0) eqn:F; [apply Qle_bool_iff in F; lra|reflexivity].
  - destruct (qlt x 0) eqn:E; [apply qlt_lt in E; lra|]. cbv zeta.
    assert (Qle_bool (inject_Z size) x = true) as -> by now apply Qle_bool_iff.
    unfold Z.sub. rewrite inject_Z_plus. reflexivity.
Qed.

(** *** The pyramid *)
Lemma half_bound a b : half_size a b = true -> 0 < a.
Proof. unfold half_size. lia. Qed.

Lemma pyramid_nth n : forall scale w h sizes,
  0 < scale -> scale ^ Z.of_nat n <= w -> scale ^ Z.of_nat n <= h ->
  pyramid (S n) scale w h = Done sizes ->
  forall o, (o <= n)%nat -> nth o sizes (0, 0) = (octave_size o scale w, octave_size o scale h).
Proof.
  unfold octave_size.
  induction n as [|n IH]; intros scale w h sizes S W H D o O.
  - cbn in D. inversion D; subst. assert (o = 0%nat) by lia. subst o. cbn [nth]. rewrite Z.pow_0_r, !Z.div_1_r. reflexivity.
  - rewrite Nat2Z.inj_succ, Z.pow_succ_r in W, H by lia.
    assert (P : 0 < scale ^ Z.of_nat n) by (apply Z.pow_pos_nonneg; lia).
    assert (W' : scale ^ Z.of_nat n <= w / scale) by (apply Z.div_le_lower_bound; lia).
    assert (H' : scale ^ Z.of_nat n <= h / scale) by (apply Z.div_le_lower_bound; lia).
    change (pyramid (Datatypes.S (Datatypes.S n)) scale w h) with
      (if scale =? 0 then Undefined
       else match pyr_down w h (Z.quot w scale) (Z.quot h scale) with
       | Done (w', h') => match pyramid (Datatypes.S n) scale w' h' with Done l => Done ((w, h) :: l) | r => r end
       | Aborts => Aborts | Throws => Throws | Undefined => Undefined | Unfinished => Unfinished
       end) in D.
    destruct (scale =? 0) eqn:E; [discriminate|].
    rewrite !Z.quot_div_nonneg in D by nia.
    unfold pyr_down in D.
    assert ((w / scale <=? 0) || (h / scale <=? 0) = false) as F by lia. rewrite F in D.
    destruct (half_size w (w / scale) && half_size h (h / scale)); [|discriminate].
    destruct (pyramid (Datatypes.S n) scale (w / scale) (h / scale)) as [l| | | |] eqn:R; try discriminate.
    inversion D; subst. destruct o as [|o]; cbn [nth].
    + rewrite Z.pow_0_r, !Z.div_1_r. reflexivity.
    + rewrite (IH _ _ _ _ S W' H' R) by lia.
      rewrite Nat2Z.inj_succ, Z.pow_succ_r, !Z.div_div by lia. reflexivity.
Qed.

(** *** The key lines *)
Lemma key_make scale w h id o l :
  0 < scale -> 0 < octave_size o scale w -> 0 < octave_size o scale h ->
  key_of scale w h (o, l)
    (make_key_line (inject_Z (scale ^ Z.of_nat o)) (octave_size o scale w) (octave_size o scale h) id o l).
Proof.
  intros S W H. unfold key_of, make_key_line. cbn [octave in_octave start_end middle kl_size fst snd x1 y1 x2 y2 scaled check_extremes].
  repeat (split; try (apply check_brought; assumption)); try reflexivity; try field.
  all: ring.
Qed.

Lemma make_in scale w h id o l :
  0 < scale -> 0 < octave_size o scale w -> 0 < octave_size o scale h ->
  line_in_image w h (start_end (make_key_line (inject_Z (scale ^ Z.of_nat o)) (octave_size o scale w) (octave_size o scale h) id o l)).
Proof.
  intros S W H. unfold octave_size in *.
  assert (P : 0 < scale ^ Z.of_nat o) by (apply Z.pow_pos_nonneg; lia).
  set (p := scale ^ Z.of_nat o) in *.
  assert (G : forall x n, 0 < n / p -> (0 <= check_extreme x (n / p) * inject_Z p)%Q /\ (check_extreme x (n / p) * inject_Z p < inject_Z n)%Q).
  { intros x n N. destruct (check_in x _ N) as [A B].
    assert (P' : (0 < inject_Z p)%Q) by (change 0%Q with (inject_Z 0); rewrite <- Zlt_Qlt; lia).
    assert (M : (inject_Z (n / p) * inject_Z p <= inject_Z n)%Q)
      by (rewrite <- inject_Z_mult, <- Zle_Qle; pose proof (Z.mul_div_le n p P); lia).
    split.
    - apply Qmult_le_0_compat; lra.
    - eapply Qlt_le_trans; [|exact M]. apply Qmult_lt_compat_r; assumption. }
  unfold line_in_image, in_image, make_key_line, scaled, check_extremes; cbn [start_end x1 y1 x2 y2].
  repeat split; apply G; assumption.
Qed.

(** the list of what the model does, in one list *)
Lemma octave_lines_ids s w h o ls : forall c, map class_id (octave_lines s w h c o ls) = map (fun i => c + 1 + Z.of_nat i) (seq 0 (length ls)).
Proof.
  induction ls as [|l ls IH]; intros c; [reflexivity|].
  cbn [octave_lines map length seq]. rewrite IH. f_equal.
  - cbn. lia.
  - rewrite <- seq_shift, map_map. apply map_ext. intros. lia.
Qed.
Lemma octave_lines_len s w h o ls : forall c, length (octave_lines s w h c o ls) = length ls.
Proof. induction ls; intros c; cbn; auto. Qed.

Lemma all_lines_ids scale os : forall c o, exists n, map class_id (all_lines scale c o os) = map (fun i => c + 1 + Z.of_nat i) (seq 0 n).
Proof.
  induction os as [|[[w h] ls] os IH]; intros c o; [exists 0%nat; reflexivity|].
  cbn [all_lines]. rewrite map_app, octave_lines_ids.
  destruct (IH (c + Z.of_nat (length ls)) (S o)) as [n E]. rewrite E.
  exists (length ls + n)%nat. rewrite seq_app, map_app. f_equal. cbn [plus].
  replace (seq (length ls) n) with (map (plus (length ls)) (seq 0 n)).
  - rewrite map_map. apply map_ext. intros. lia.
  - clear. generalize (length ls). intros k. revert k. induction n; intros k; [reflexivity|].
    rewrite seq_S, map_app, IHn, seq_S. reflexivity.
Qed.

Lemma octave_lines_forall (P : line -> key_line -> Prop) s w h o ls :
  (forall id l, P l (make_key_line s w h id o l)) -> forall c, Forall2 P ls (octave_lines s w h c o ls).
Proof. intros H. induction ls; intros c; cbn [octave_lines]; constructor; auto. Qed.

Lemma all_lines_forall (P : nat * line -> key_line -> Prop) scale (size : nat -> Z * Z) (ls : nat -> list line) n : forall c o,
  (forall o' id l, (o <= o' < o + n)%nat -> P (o', l) (make_key_line (inject_Z (scale ^ Z.of_nat o')) (fst (size o')) (snd (size o')) id o' l)) ->
  Forall2 P (flat_map (fun o => map (pair o) (ls o)) (seq o n)) (all_lines scale c o (map (fun o => (size o, ls o)) (seq o n))).
Proof.
  induction n as [|n IH]; intros c o H; cbn [seq flat_map map all_lines]; [constructor|].
  destruct (size o) as [w h] eqn:E. apply Forall2_app.
  - assert (G : Forall2 (fun l k => P (o, l) k) (ls o) (octave_lines (inject_Z (scale ^ Z.of_nat o)) w h c o (ls o))).
    { apply octave_lines_forall. intros id l. specialize (H o id l ltac:(lia)). rewrite E in H. exact H. }
    clear - G. induction G; cbn; constructor; auto.
  - apply IH. intros. apply H. lia.
Qed.

(** the octaves of the model are those of the specification *)
Lemma octaves_spec (detector : nat -> Z -> Z -> list line) n scale w h sizes :
  0 < scale -> scale ^ Z.of_nat n <= w -> scale ^ Z.of_nat n <= h -> pyramid (S n) scale w h = Done sizes ->
  map (fun o => (nth o sizes (0, 0), let (w, h) := nth o sizes (0, 0) in detector o w h)) (seq 0 (S n)) =
  map (fun o => ((octave_size o scale w, octave_size o scale h), detector o (octave_size o scale w) (octave_size o scale h))) (seq 0 (S n)).
Proof.
  intros. apply map_ext_in. intros o O. apply in_seq in O.
  rewrite (pyramid_nth n scale w h sizes) by (auto; lia). reflexivity.
Qed.

Lemma size_pos scale n o w : 0 < scale -> (o <= n)%nat -> scale ^ Z.of_nat n <= w -> 0 < octave_size o scale w.
Proof.
  intros S O W. unfold octave_size. apply Z.div_str_pos. split; [apply Z.pow_pos_nonneg; lia|].
  etransitivity; [|exact W]. apply Z.pow_le_mono_r; lia.
Qed.

Lemma octaves_all n scale w : 0 < scale -> scale ^ Z.of_nat n <= w -> forall o, (0 <= o < 0 + S n)%nat -> 0 < octave_size o scale w.
Proof. intros. apply (size_pos scale n); auto; lia. Qed.

(** *** The mask *)
Lemma at_mask_in m x y : in_image (m_cols m) (m_rows m) x y -> at_mask m y x = Done (on_white m x y).
Proof.
  intros (X0 & X1 & Y0 & Y1). unfold at_mask, on_white, to_int.
  assert (Qle_bool 0 x = true) as -> by now apply Qle_bool_iff.
  assert (Qle_bool 0 y = true) as -> by now apply Qle_bool_iff.
  assert (A : forall q n, (0 <= q)%Q -> (q < inject_Z n)%Q -> 0 <= Qfloor q < n).
  { intros q n Q0 Q1. split.
    - change 0 with (Qfloor 0). apply Qfloor_resp_le; assumption.
    - rewrite Zlt_Qlt. eapply Qle_lt_trans; [apply Qfloor_le|assumption]. }
  pose proof (A _ _ X0 X1). pose proof (A _ _ Y0 Y1).
  assert ((0 <=? Qfloor y) && (Qfloor y <? m_rows m) && (0 <=? Qfloor x) && (Qfloor x <? m_cols m) = true) as -> by lia.
  reflexivity.
Qed.

Lemma undesired_in m k : line_in_image (m_cols m) (m_rows m) (start_end k) -> undesired m k = Done (negb (desired m k)).
Proof.
  intros [A B]. unfold undesired, desired. rewrite (at_mask_in _ _ _ A), (at_mask_in _ _ _ B).
  destruct (on_white m (x1 (start_end k)) (y1 (start_end k))); reflexivity.
Qed.

Lemma erase_mid {A} (pre : list A) a post : erase (length pre) (pre ++ a :: post) = pre ++ post.
Proof. induction pre; cbn; congruence. Qed.

Lemma mask_loop_filter m fuel : forall pre post,
  Forall (fun k => line_in_image (m_cols m) (m_rows m) (start_end k)) post -> (length post < fuel)%nat ->
  mask_loop fuel m (length pre) (pre ++ post) = Done (pre ++ filter (desired m) post).
Proof.
  induction fuel as [|fuel IH]; intros pre post F L; [lia|]. cbn [mask_loop].
  rewrite nth_error_app2, Nat.sub_diag by lia. destruct post as [|k post]; [reflexivity|]. cbn [nth_error filter].
  inversion F; subst. rewrite undesired_in by assumption. cbn [length] in L.
  destruct (desired m k); cbn [negb].
  - specialize (IH (pre ++ [k]) post). rewrite app_length, Nat.add_1_r, <- !app_assoc in IH. apply IH; [assumption|lia].
  - rewrite erase_mid. apply IH; [assumption|lia].
Qed.

(** what a detection that ends went through *)
Lemma detect_split debug detector octaves scale w h m before ks :
  detect debug detector octaves scale w h m before = Done ks ->
  exists sizes, pyramid octaves scale w h = Done sizes.
Proof.
  unfold detect. destruct (debug && _); [discriminate|].
  destruct (pyramid octaves scale w h); try discriminate. eauto.
Qed.

Section C113.
Variable detector : nat -> Z -> Z -> list line.
Variables (n : nat) (scale w h : Z).
Hypothesis scale_pos : 0 < scale.
Hypothesis w_big : scale ^ Z.of_nat n <= w.
Hypothesis h_big : scale ^ Z.of_nat n <= h.

Lemma detect_none before ks :
  detect false detector (S n) scale w h None before = Done ks ->
  ks = before ++ all_lines scale (-1) 0
    (map (fun o => ((octave_size o scale w, octave_size o scale h), detector o (octave_size o scale w) (octave_size o scale h))) (seq 0 (S n))).
Proof.
  intros D. destruct (detect_split _ _ _ _ _ _ _ _ _ D) as [sizes P]. unfold detect in D. rewrite P in D.
  cbn [andb] in D. rewrite (octaves_spec detector n scale w h sizes scale_pos w_big h_big P) in D.
  assert (I : forall A (a b : A), Done a = Done b -> a = b) by (intros A a b E; injection E; auto). symmetry. exact (I _ _ _ D).
Qed.

(** C113: the lines given back are those found in the images of the octaves, in order, each with
    its octave, its place in the image of the octave and its place in the image. *)
Theorem C113_lines before ks :
  detect false detector (S n) scale w h None before = Done ks ->
  exists new, ks = before ++ new /\ Forall2 (key_of scale w h) (found detector (S n) scale w h) new.
Proof.
  intros D. eexists. split; [exact (detect_none _ _ D)|].
  apply (all_lines_forall _ scale (fun o => (octave_size o scale w, octave_size o scale h))
    (fun o => detector o (octave_size o scale w) (octave_size o scale h))).
  intros o id l O. cbn [fst snd]. apply key_make; [assumption|apply (octaves_all n); assumption..].
Qed.

(** C113: they are in the image. *)
Theorem C113_inside before ks :
  detect false detector (S n) scale w h None before = Done ks ->
  exists new, ks = before ++ new /\ Forall (fun k => line_in_image w h (start_end k)) new.
Proof.
  intros D. eexists. split; [exact (detect_none _ _ D)|].
  assert (G := all_lines_forall (fun _ k => line_in_image w h (start_end k)) scale (fun o => (octave_size o scale w, octave_size o scale h))
    (fun o => detector o (octave_size o scale w) (octave_size o scale h)) (S n) (-1) 0).
  cbn [fst snd] in G.
  assert (F : forall (A B : Type) (P : B -> Prop) (a : list A) (b : list B), Forall2 (fun _ k => P k) a b -> Forall P b)
    by (induction 1; constructor; auto).
  eapply F. apply G. intros o id l O. apply make_in; [assumption|apply (octaves_all n); assumption..].
Qed.

(** C113: they are numbered from 0. *)
Theorem C113_numbers before ks :
  detect false detector (S n) scale w h None before = Done ks ->
  exists new, ks = before ++ new /\ map class_id new = map Z.of_nat (seq 0 (length new)).
Proof.
  intros D. eexists. split; [exact (detect_none _ _ D)|].
  match goal with |- map class_id ?l = _ => set (new := l) end.
  destruct (all_lines_ids scale (map (fun o => ((octave_size o scale w, octave_size o scale h), detector o (octave_size o scale w) (octave_size o scale h))) (seq 0 (S n))) (-1) 0) as [k E].
  fold new in E. assert (k = length new) by (rewrite <- (map_length class_id), E, map_length, seq_length; reflexivity).
  subst k. rewrite E. apply map_ext. intros. lia.
Qed.

(** C113: with a mask of the size of the image, the lines whose two extremities are black are
    removed, and only these, the ones already in the vector included. *)
Theorem C113_mask debug m before ks :
  m_cols m = w -> m_rows m = h -> Forall (fun k => line_in_image w h (start_end k)) before ->
  detect false detector (S n) scale w h None before = Done ks ->
  detect debug detector (S n) scale w h (Some m) before = Done (filter (desired m) ks).
Proof.
  intros C R B D. destruct (C113_inside _ _ D) as (new & E & F).
  assert (A : Forall (fun k => line_in_image (m_cols m) (m_rows m) (start_end k)) ks).
  { rewrite C, R, E. apply Forall_app. split; assumption. }
  unfold detect in *. cbn [andb] in D.
  assert (debug && negb ((1 <=? S n)%nat && (0 <? scale) && true) = false) as -> by (destruct debug; cbn; lia).
  destruct (pyramid (S n) scale w h) as [sizes| | | |]; try discriminate.
  assert (I : forall A (a b : A), Done a = Done b -> a = b) by (intros ? a b E'; injection E'; auto).
  apply I in D. rewrite D. exact (mask_loop_filter m (S (length ks)) [] ks A ltac:(lia)).
Qed.
End C113.

(** C113: with a ratio of 2 the detection ends, for all the images. The sizes are the halves; a
    size of one pixel is kept, and the other one is then rounded up. *)
Lemma pyr_down_two w h : 0 < w -> 0 < h ->
  pyr_down w h (w / 2) (h / 2) = Done (if (w =? 1) || (h =? 1) then ((w + 1) / 2, (h + 1) / 2) else (w / 2, h / 2)).
Proof.
  intros W H. unfold pyr_down, half_size.
  pose proof (Z.div_mod w 2 ltac:(lia)). pose proof (Z.mod_pos_bound w 2 ltac:(lia)).
  pose proof (Z.div_mod h 2 ltac:(lia)). pose proof (Z.mod_pos_bound h 2 ltac:(lia)).
  pose proof (Z.div_mod (w + 1) 2 ltac:(lia)). pose proof (Z.mod_pos_bound (w + 1) 2 ltac:(lia)).
  pose proof (Z.div_mod (h + 1) 2 ltac:(lia)). pose proof (Z.mod_pos_bound (h + 1) 2 ltac:(lia)).
  replace ((w / 2 <=? 0) || (h / 2 <=? 0)) with ((w =? 1) || (h =? 1)) by lia.
  destruct ((w =? 1) || (h =? 1)).
  - assert ((0 <? w) && (Z.abs ((w + 1) / 2 * 2 - w) <=? 2) && ((0 <? h) && (Z.abs ((h + 1) / 2 * 2 - h) <=? 2)) = true) as -> by lia. reflexivity.
  - assert ((0 <? w) && (Z.abs (w / 2 * 2 - w) <=? 2) && ((0 <? h) && (Z.abs (h / 2 * 2 - h) <=? 2)) = true) as -> by lia. reflexivity.
Qed.
Lemma pyramid_two n : forall w h, 0 < w -> 0 < h -> exists sizes, pyramid n 2 w h = Done sizes /\ length sizes = n /\
  Forall (fun s => 0 < fst s /\ 0 < snd s) sizes.
Proof.
  induction n as [|n IH]; intros w h W H; [exists []; repeat split; constructor|].
  destruct n as [|n]; [exists [(w, h)]; repeat split; repeat constructor; assumption|].
  change (pyramid (S (S n)) 2 w h) with
    (match pyr_down w h (Z.quot w 2) (Z.quot h 2) with
     | Done (w', h') => match pyramid (S n) 2 w' h' with Done l => Done ((w, h) :: l) | r => r end
     | Aborts => Aborts | Throws => Throws | Undefined => Undefined | Unfinished => Unfinished end).
  rewrite !Z.quot_div_nonneg, pyr_down_two by lia.
  pose proof (Z.div_mod w 2 ltac:(lia)). pose proof (Z.mod_pos_bound w 2 ltac:(lia)).
  pose proof (Z.div_mod h 2 ltac:(lia)). pose proof (Z.mod_pos_bound h 2 ltac:(lia)).
  pose proof (Z.div_mod (w + 1) 2 ltac:(lia)). pose proof (Z.mod_pos_bound (w + 1) 2 ltac:(lia)).
  pose proof (Z.div_mod (h + 1) 2 ltac:(lia)). pose proof (Z.mod_pos_bound (h + 1) 2 ltac:(lia)).
  destruct ((w =? 1) || (h =? 1)) eqn:C; [destruct (IH ((w + 1) / 2) ((h + 1) / 2)) as (l & -> & L & F)|destruct (IH (w / 2) (h / 2)) as (l & -> & L & F)];
    try lia; (exists ((w, h) :: l); repeat split; [cbn [length]; congruence|constructor; [split; assumption|exact F]]).
Qed.
Theorem C113_two detector n w h before : 0 < w -> 0 < h ->
  (exists ks, detect false detector n 2 w h None before = Done ks) /\
  exists sizes, pyramid n 2 w h = Done sizes /\ length sizes = n /\ Forall (fun s => 0 < fst s /\ 0 < snd s) sizes.
Proof.
  intros W H. destruct (pyramid_two n w h W H) as (sizes & E & L & F). split; [|now exists sizes].
  unfold detect. rewrite E. eexists. reflexivity.
Qed.

(** C113: with another ratio OpenCV throws, as soon as there are two octaves. *)
Theorem C113_other_ratio detector n scale w h m before :
  0 < scale -> scale <> 2 -> 6 < w -> scale <= w -> scale <= h ->
  detect false detector (S (S n)) scale w h m before = Throws.
Proof.
  intros S N W SW SH. unfold detect. cbn [andb].
  assert (pyramid (Datatypes.S (Datatypes.S n)) scale w h = Throws) as ->; [|reflexivity].
  cbn [pyramid]. assert (scale =? 0 = false) as -> by lia. rewrite !Z.quot_div_nonneg by lia.
  assert (pyr_down w h (w / scale) (h / scale) = Throws) as ->; [|reflexivity].
  unfold pyr_down.
  assert (1 <= w / scale) by (apply Z.div_le_lower_bound; lia).
  assert (1 <= h / scale) by (apply Z.div_le_lower_bound; lia).
  assert ((w / scale <=? 0) || (h / scale <=? 0) = false) as -> by lia.
  assert (half_size w (w / scale) = false) as ->; [|reflexivity].
  unfold half_size.
  pose proof (Z.div_mod w scale ltac:(lia)). pose proof (Z.mod_pos_bound w scale ltac:(lia)).
  set (q := w / scale) in *. clearbody q.
  assert (scale = 1 \/ 3 <= scale) as [->|T] by lia; [lia|].
  assert (3 * q <= scale * q) by nia. lia.
Qed.

(** C113, refuted: with the assertions, a detection without mask never ends well. *)
Theorem C113_without_mask_refuted detector octaves scale w h before :
  detect true detector octaves scale w h None before = Aborts.
Proof. unfold detect. rewrite andb_false_r. reflexivity. Qed.

(** C113, refuted: a mask that is not of the size of the image is accepted, and read outside of it. *)
Theorem C113_size_of_mask_refuted : exists detector m,
  m_cols m > 0 /\ m_rows m > 0 /\ detect true detector 1 2 4 4 (Some m) [] = Undefined.
Proof.
  exists (fun _ _ _ => [mkLine 3 3 1 1]), (mkMask 2 2 (fun _ _ => false)). repeat split; vm_compute; reflexivity.
Qed.

(** C113, refuted: in an image of one pixel of width or height, the other size is rounded up and
    a line of the next octave is outside of the image, with a ratio of 2. *)
Theorem C113_narrow_refuted : exists detector w h ks,
  0 < w /\ 0 < h /\ detect false detector 2 2 w h None [] = Done ks /\
  exists k, In k ks /\ ~ line_in_image w h (start_end k).
Proof.
  exists (fun o _ _ => match o with O => [] | _ => [mkLine 0 0 0 (5 # 2)] end), 1, 5. eexists.
  repeat (split; [vm_compute; reflexivity|]). eexists. split; [left; reflexivity|].
  intros [_ [_ [_ [_ A]]]]. vm_compute in A. discriminate.
Qed.

(** C113, refuted: when the ratio is larger than the image, the lines are outside of the image. *)
Theorem C113_inside_refuted : exists detector scale w h ks,
  0 < scale /\ 0 < w /\ 0 < h /\ detect false detector 2 scale w h None [] = Done ks /\
  exists k, In k ks /\ ~ line_in_image w h (start_end k).
Proof.
  exists (fun o _ _ => match o with O => [] | _ => [mkLine 1 1 3 3] end), 100, 8, 8. eexists.
  repeat (split; [vm_compute; reflexivity|]). eexists. split; [left; reflexivity|].
  intros [[_ [A _]] _]. vm_compute in A. discriminate.
Qed.

(** C113, refuted: two detections into the same vector give two lines the same number. *)
Theorem C113_numbers_refuted : exists detector ks1 ks2,
  detect false detector 1 2 4 4 None [] = Done ks1 /\ detect false detector 1 2 4 4 None ks1 = Done ks2 /\
  ~ NoDup (map class_id ks2).
Proof.
  exists (fun _ _ _ => [mkLine 1 1 3 3]). do 2 eexists. split; [vm_compute; reflexivity|]. split; [vm_compute; reflexivity|].
  vm_compute. intros N. inversion N; subst. apply H1. left. reflexivity.
Qed.

(** Two octaves, a line beyond a border in each one; the mask keeps the lines on its left half. *)
Example C113_example :
  let detector := fun o (w h : Z) => match o with O => [mkLine (-1) 2 3 9; mkLine 6 6 7 7] | _ => [mkLine 2 2 (7 # 2) 3; mkLine 1 1 3 3] end in
  let m := mkMask 8 8 (fun r c => c <? 4) in
  2 ^ 1 <= 8 /\
  (exists ks, detect false detector 2 2 8 8 None [] = Done ks /\ map class_id ks = [0; 1; 2; 3] /\ map octave ks = [0; 0; 1; 1]%nat) /\
  (exists ks, detect true detector 2 2 8 8 (Some m) [] = Done ks /\ map class_id ks = [0; 3] /\
    map start_end ks = [mkLine (0 * 1) (2 * 1) (3 * 1) ((8 - 1) * 1); mkLine (1 * 2) (1 * 2) (3 * 2) (3 * 2)]%Q).
Proof.
  cbv zeta. split; [lia|]. split; eexists; (split; [vm_compute; reflexivity|]); split; vm_compute; reflexivity.
Qed.

Print Assumptions C113_lines. Print Assumptions C113_inside. Print Assumptions C113_numbers. Print Assumptions C113_mask.
Print Assumptions C113_two. Print Assumptions C113_narrow_refuted. Print Assumptions C113_other_ratio. Print Assumptions C113_without_mask_refuted.
Print Assumptions C113_size_of_mask_refuted. Print Assumptions C113_inside_refuted. Print Assumptions C113_numbers_refuted.
