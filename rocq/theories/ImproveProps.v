(** The advanced validation of lines. *)
From Verif Require Import LsdModel ImproveModel ImproveSpec.
From Coq Require Import Reals ZArith List Bool Arith FinFun Lia Lra Psatz ZifyBool ZifyNat.
Import ListNotations.
Local Open Scope R_scope.

Lemma rle_iff a b : rle a b = true <-> a <= b.
Proof. unfold rle. destruct (Rle_dec a b); split; auto; discriminate. Qed.
Lemma rlt_iff a b : rlt a b = true <-> a < b.
Proof. unfold rlt. destruct (Rlt_dec a b); split; auto; discriminate. Qed.
Lemma rle_false a b : rle a b = false <-> b < a.
Proof. unfold rle. destruct (Rle_dec a b); split; intros; try discriminate; auto; lra. Qed.
Lemma rlt_false a b : rlt a b = false <-> b <= a.
Proof. unfold rlt. destruct (Rlt_dec a b); split; intros; try discriminate; auto; lra. Qed.

(** *** Improvement *)
Section Improve.
Variable score : vrect -> R.
Variable log_eps : R.

Fixpoint tried (n : nat) (guard : vrect -> bool) (change : vrect -> vrect) (r : vrect) : list vrect :=
  match n with
  | O => []
  | S n => if guard r then change r :: tried n guard change (change r) else tried n guard change r
  end.

Lemma best_snoc l b r : best_of score l b ->
  best_of score (l ++ [r]) (if rlt (score b) (score r) then r else b).
Proof.
  intros (u & v & -> & U & V). destruct (rlt (score b) (score r)) eqn:E.
  - apply rlt_iff in E. exists (u ++ b :: v), []. split; [reflexivity|]. split; [|constructor].
    apply Forall_app. split; [eapply Forall_impl; [|exact U]; cbn; intros; lra|].
    constructor; [exact E|]. eapply Forall_impl; [|exact V]. cbn. intros; lra.
  - apply rlt_false in E. exists u, (v ++ [r]). rewrite <- app_assoc. split; [reflexivity|]. split; [exact U|].
    apply Forall_app. split; [exact V|]. constructor; [exact E|constructor].
Qed.

Lemma tries_best guard change n : forall r l b, best_of score l b ->
  exists b', tries score n guard change r (b, score b) = (b', score b') /\ best_of score (l ++ tried n guard change r) b'.
Proof.
  induction n as [|n IH]; intros r l b B; cbn [tries tried].
  - exists b. rewrite app_nil_r. auto.
  - destruct (guard r); [|apply IH; exact B].
    cbn [snd]. pose proof (best_snoc l b (change r) B) as B'.
    destruct (IH (change r) _ _ B') as (b' & E & B''). rewrite <- app_assoc in B''. exists b'. split; [|exact B''].
    rewrite <- E. f_equal. destruct (rlt (score b) (score (change r))); reflexivity.
Qed.

Lemma best_single r : best_of score [r] r.
Proof. exists [], []. repeat split; constructor. Qed.

Lemma stage_step guard change candidates r :
  r :: tried 5 guard change r = candidates r ->
  exists r', stage score log_eps guard change (r, score r) = (r', score r') /\ step score log_eps candidates r r'.
Proof.
  intros C. unfold stage, step. cbn [fst snd]. destruct (rlt log_eps (score r)) eqn:E.
  - apply rlt_iff in E. exists r. auto.
  - apply rlt_false in E. destruct (tries_best guard change 5 r [r] r (best_single r)) as (b' & T & B).
    exists b'. split; [exact T|]. right. rewrite <- C. split; assumption.
Qed.

Fixpoint times (k : nat) (change : vrect -> vrect) (r : vrect) : vrect :=
  match k with O => r | S k => times k change (change r) end.
Lemma times_width change (D : forall r, vwidth (change r) = vwidth r - / 2) k : forall r, vwidth (times k change r) = vwidth r - INR k / 2.
Proof.
  induction k as [|k IH]; intros r; [cbn; lra|]. cbn [times]. rewrite IH, D, S_INR. lra.
Qed.
Lemma tried_wide change (D : forall r, vwidth (change r) = vwidth r - / 2) n : forall r,
  tried n wide change r = filter (fun r => rle (/ 2) (vwidth r)) (map (fun k => times k change r) (seq 1 n)).
Proof.
  induction n as [|n IH]; intros r; [reflexivity|].
  cbn [tried seq map filter times]. rewrite D. unfold wide at 1, delta.
  destruct (rle (/ 2) (vwidth r - / 2)) eqn:E.
  - f_equal. rewrite IH. f_equal. rewrite <- (seq_shift n 1), map_map. reflexivity.
  - apply rle_false in E. rewrite IH. rewrite <- (seq_shift n 1), map_map. cbn [times].
    assert (N : forall (f : nat -> vrect) l, (forall k, In k l -> vwidth (f k) < / 2) -> filter (fun r => rle (/ 2) (vwidth r)) (map f l) = []).
    { intros f l. induction l as [|a l IHl]; intros H; [reflexivity|]. cbn [map filter].
      assert (rle (/ 2) (vwidth (f a)) = false) as -> by (apply rle_false, H; left; reflexivity). apply IHl. intros. apply H. right. assumption. }
    rewrite !N; [reflexivity| |].
    + intros k K. rewrite (times_width change D), D. pose proof (pos_INR k). lra.
    + intros k K. apply in_seq in K. rewrite (times_width change D).
      assert (1 <= INR k) by (change 1 with (INR 1); apply le_INR; lia). lra.
Qed.
Lemma tried_finer_all n : forall r, tried n (fun _ => true) finer r = map (fun k => times k finer r) (seq 1 n).
Proof.
  induction n as [|n IH]; intros r; [reflexivity|]. cbn [tried seq map times]. f_equal.
  rewrite IH, <- (seq_shift n 1), map_map. reflexivity.
Qed.
Lemma tried_finer_wide n : forall r, tried n wide finer r = if rle 1 (vwidth r) then map (fun k => times k finer r) (seq 1 n) else [].
Proof.
  induction n as [|n IH]; intros r; [cbn; destruct (rle 1 (vwidth r)); reflexivity|]. cbn [tried]. unfold wide at 1, delta.
  destruct (rle (/ 2) (vwidth r - / 2)) eqn:E, (rle 1 (vwidth r)) eqn:F;
    try (apply rle_iff in E); try (apply rle_iff in F); try (apply rle_false in E); try (apply rle_false in F); try lra.
  - cbn [seq map times]. f_equal. rewrite IH. change (vwidth (finer r)) with (vwidth r).
    apply rle_iff in F. rewrite F, <- (seq_shift n 1), map_map. reflexivity.
  - rewrite IH. apply rle_false in F. rewrite F. reflexivity.
Qed.

Lemma vrect_eq a b : vx1 a = vx1 b -> vy1 a = vy1 b -> vx2 a = vx2 b -> vy2 a = vy2 b -> vwidth a = vwidth b -> vtheta a = vtheta b ->
  vdx a = vdx b -> vdy a = vdy b -> vprec a = vprec b -> vp a = vp b -> a = b.
Proof. destruct a, b. cbn. intros. subst. reflexivity. Qed.
Ltac same_rect := apply vrect_eq; cbn; unfold delta_2, delta; try reflexivity; try field; lra.

Lemma finer_variants r : map (fun k => times k finer r) (seq 1 5) = map (variant r 0 0) [1; 2; 3; 4; 5]%nat.
Proof. cbn [seq map]. repeat f_equal; same_rect. Qed.
Lemma narrower_variants r : map (fun k => times k narrower r) (seq 1 5) = map (fun k => variant r 0 (INR k / 2) 0) [1; 2; 3; 4; 5]%nat.
Proof. cbn [seq map]. repeat f_equal; same_rect. Qed.
Lemma one_side_variants r : map (fun k => times k one_side r) (seq 1 5) = map (fun k => variant r (INR k / 4) (INR k / 2) 0) [1; 2; 3; 4; 5]%nat.
Proof. cbn [seq map]. repeat f_equal; same_rect. Qed.
Lemma other_side_variants r : map (fun k => times k other_side r) (seq 1 5) = map (fun k => variant r (- (INR k / 4)) (INR k / 2) 0) [1; 2; 3; 4; 5]%nat.
Proof. cbn [seq map]. repeat f_equal; same_rect. Qed.

(** C114: the improvement is five steps; each one keeps a rectangle whose score passes the
    threshold, and takes otherwise the best one of the rectangles it tries. What is given back is the
    score of the rectangle that is left. *)
Theorem C114_steps r :
  exists r1 r2 r3 r4 r5,
    step score log_eps by_precision r r1 /\ step score log_eps by_width r1 r2 /\ step score log_eps by_one_side r2 r3 /\
    step score log_eps by_other_side r3 r4 /\ step score log_eps by_precision_again r4 r5 /\
    rect_improve score log_eps r = (r5, score r5).
Proof.
  unfold rect_improve.
  destruct (stage_step (fun _ => true) finer by_precision r) as (r1 & E1 & S1);
    [unfold by_precision; rewrite tried_finer_all, finer_variants; reflexivity|].
  destruct (stage_step wide narrower by_width r1) as (r2 & E2 & S2);
    [unfold by_width; rewrite tried_wide by reflexivity; rewrite narrower_variants; reflexivity|].
  destruct (stage_step wide one_side by_one_side r2) as (r3 & E3 & S3);
    [unfold by_one_side; rewrite tried_wide by reflexivity; rewrite one_side_variants; reflexivity|].
  destruct (stage_step wide other_side by_other_side r3) as (r4 & E4 & S4);
    [unfold by_other_side; rewrite tried_wide by reflexivity; rewrite other_side_variants; reflexivity|].
  destruct (stage_step wide finer by_precision_again r4) as (r5 & E5 & S5);
    [unfold by_precision_again; rewrite tried_finer_wide, finer_variants; reflexivity|].
  exists r1, r2, r3, r4, r5. rewrite E1, E2, E3, E4, E5. auto 10.
Qed.

Lemma step_cases candidates r r' : (exists l, candidates r = r :: l) -> step score log_eps candidates r r' ->
  r' = r \/ (score r <= log_eps /\ score r < score r' /\ exists l, candidates r = r :: l /\ In r' l).
Proof.
  intros [l C] [[_ ->]|[L (u & v & E & U & V)]]; [left; reflexivity|]. rewrite C in E.
  destruct u as [|a u]; cbn in E; injection E as -> ->; [left; reflexivity|].
  right. inversion U; subst. repeat split; auto. exists (u ++ r' :: v). split; [assumption|]. apply in_or_app. right. left. reflexivity.
Qed.

Lemma inner_refl a : inner a a.
Proof.
  exists 0, 0, 0%nat. split; [apply vrect_eq; cbn; lra|]. rewrite Rabs_R0. split; [lra|]. left. reflexivity.
Qed.
Lemma variant_twice r t w j t' w' j' : variant (variant r t w j) t' w' j' = variant r (t + t') (w + w') (j + j').
Proof.
  apply vrect_eq; cbn; try ring.
  - destruct j'; [rewrite Nat.add_0_r; reflexivity|]. rewrite Nat.add_succ_r, <- Nat.add_succ_r, pow_add. cbn [pow].
    field. split; apply pow_nonzero; lra.
  - rewrite pow_add. field. split; apply pow_nonzero; lra.
Qed.
Lemma inner_trans a t w j t' w' j' :
  Rabs t <= w / 2 -> (w = 0 \/ / 2 <= vwidth (variant a t w j)) -> Rabs t' <= w' / 2 -> 0 <= w' ->
  (w' = 0 \/ / 2 <= vwidth (variant (variant a t w j) t' w' j')) -> inner a (variant (variant a t w j) t' w' j').
Proof.
  intros T W T' P W'. rewrite variant_twice in *. exists (t + t'), (w + w'), (j + j')%nat. split; [reflexivity|].
  cbn [vwidth variant] in *. split; [pose proof (Rabs_triang t t'); lra|].
  destruct W' as [->|W']; [|right; exact W'].
  destruct W as [->|W]; [left; lra|right; lra].
Qed.
Lemma in_precision r r' : In r' (map (variant r 0 0) [1; 2; 3; 4; 5]%nat) -> exists j, r' = variant r 0 0 j.
Proof. intros I. apply in_map_iff in I as (j & <- & _). eauto. Qed.
Lemma in_sides r r' (f : nat -> R) : In r' (filter (fun r => rle (/ 2) (vwidth r)) (map (fun k => variant r (f k) (INR k / 2) 0) [1; 2; 3; 4; 5]%nat)) ->
  exists k, r' = variant r (f k) (INR k / 2) 0 /\ / 2 <= vwidth r'.
Proof. intros I. apply filter_In in I as [I W]. apply rle_iff in W. apply in_map_iff in I as (k & <- & _). eauto. Qed.

Lemma inner_step candidates a r r' :
  inner a r -> (exists l, candidates r = r :: l) ->
  (forall l, candidates r = r :: l -> In r' l -> exists t w j, r' = variant r t w j /\ Rabs t <= w / 2 /\ 0 <= w /\ (w = 0 \/ / 2 <= vwidth r')) ->
  step score log_eps candidates r r' -> inner a r' /\ score r <= score r' /\ (r' = r \/ (score r <= log_eps /\ score r < score r')).
Proof.
  intros I H C S. destruct (step_cases _ _ _ H S) as [->|(L & LT & l & E & IN)]; [split; [assumption|split; [lra|left; reflexivity]]|].
  split; [|split; [lra|right; auto]].
  destruct (C l E IN) as (t' & w' & j' & -> & T & P & W). destruct I as (t & w & j & -> & T0 & W0). apply inner_trans; assumption.
Qed.

(** C114: the rectangle left is inside of the one given: it keeps the direction and the length, its
    sides do not go beyond those of the first one, and its width is at least a half if it changed.
    Its score is at least that of the first one, and strictly more if the rectangle changed, which
    happens only when the score of the first one does not pass the threshold. *)
Theorem C114_inside r :
  let '(r', s) := rect_improve score log_eps r in
  s = score r' /\ inner r r' /\ score r <= s /\ (r' = r \/ (score r <= log_eps /\ score r < s)).
Proof.
  destruct (C114_steps r) as (r1 & r2 & r3 & r4 & r5 & S1 & S2 & S3 & S4 & S5 & ->).
  assert (P : forall x, Rabs (x / 4) = Rabs x / 4) by (intros; unfold Rdiv; rewrite Rabs_mult, (Rabs_pos_eq (/ 4)) by lra; reflexivity).
  assert (Z0 : Rabs 0 <= 0 / 2) by (rewrite Rabs_R0; lra).
  destruct (inner_step by_precision r r r1 (inner_refl r) ltac:(eexists; reflexivity)
    ltac:(intros l E IN; injection E as <-; destruct (in_precision _ _ IN) as [j ->]; exists 0, 0, j; repeat split; [exact Z0|lra|left; reflexivity]) S1) as (I1 & L1 & D1).
  destruct (inner_step by_width r r1 r2 I1 ltac:(eexists; reflexivity)
    ltac:(intros l E IN; injection E as <-; destruct (in_sides _ _ (fun _ => 0) IN) as (k & -> & W); exists 0, (INR k / 2), 0%nat; pose proof (pos_INR k);
      repeat split; [rewrite Rabs_R0; lra|lra|right; exact W]) S2) as (I2 & L2 & D2).
  destruct (inner_step by_one_side r r2 r3 I2 ltac:(eexists; reflexivity)
    ltac:(intros l E IN; injection E as <-; destruct (in_sides _ _ (fun k => INR k / 4) IN) as (k & -> & W); exists (INR k / 4), (INR k / 2), 0%nat; pose proof (pos_INR k);
      repeat split; [rewrite P, Rabs_pos_eq by lra; lra|lra|right; exact W]) S3) as (I3 & L3 & D3).
  destruct (inner_step by_other_side r r3 r4 I3 ltac:(eexists; reflexivity)
    ltac:(intros l E IN; injection E as <-; destruct (in_sides _ _ (fun k => - (INR k / 4)) IN) as (k & -> & W); exists (- (INR k / 4)), (INR k / 2), 0%nat; pose proof (pos_INR k);
      repeat split; [rewrite Rabs_Ropp, P, Rabs_pos_eq by lra; lra|lra|right; exact W]) S4) as (I4 & L4 & D4).
  destruct (inner_step by_precision_again r r4 r5 I4 ltac:(eexists; reflexivity)
    ltac:(intros l E IN; unfold by_precision_again in E; injection E as <-; destruct (rle 1 (vwidth r4)); [|destruct IN];
      destruct (in_precision _ _ IN) as [j ->]; exists 0, 0, j; repeat split; [exact Z0|lra|left; reflexivity]) S5) as (I5 & L5 & D5).
  split; [reflexivity|]. split; [exact I5|]. split; [lra|].
  destruct D1 as [->|D1]; [|right; lra]. destruct D2 as [->|D2]; [|right; lra]. destruct D3 as [->|D3]; [|right; lra].
  destruct D4 as [->|D4]; [|right; lra]. destruct D5 as [->|D5]; [left; reflexivity|right; lra].
Qed.
End Improve.

(** *** Pixels *)
Lemma remove_length c l : In c l -> S (length (remove_corner c l)) = length l.
Proof.
  induction l as [|a l IH]; intros I; [destruct I|]. cbn [remove_corner length].
  destruct (pixel_eqb a c) eqn:E; [reflexivity|]. cbn [length]. rewrite IH; [reflexivity|].
  destruct I as [->|I]; [|exact I]. unfold pixel_eqb in E. lia.
Qed.
Lemma best_in better l : forall b, In (best_corner better b l) (b :: l).
Proof.
  induction l as [|a l IH]; intros b; [left; reflexivity|]. unfold best_corner in *. cbn [fold_left].
  destruct (better a b); specialize (IH a) as A; specialize (IH b) as B; cbn in *; tauto.
Qed.
Lemma take_some better l n : length l = S n -> exists c rest, take_corner better l = Some (c, rest) /\ length rest = n /\ In c l.
Proof.
  destruct l as [|b l]; [discriminate|]. intros L. cbn [take_corner]. eexists. eexists. split; [reflexivity|].
  pose proof (best_in better l b) as I. split; [|exact I]. pose proof (remove_length _ _ I). lia.
Qed.
Lemma insert_length a l : length (insert_corner a l) = S (length l).
Proof. induction l as [|b l IH]; [reflexivity|]. cbn [insert_corner]. destruct (smaller b a); cbn [length]; lia. Qed.
Lemma sort_length l : length (sort_corners l) = length l.
Proof. induction l; [reflexivity|]. cbn [sort_corners fold_right length]. rewrite insert_length. unfold sort_corners in IHl. lia. Qed.

Lemma zseq_in n : forall a x, In x (zseq a n) <-> (a <= x < a + Z.of_nat n)%Z.
Proof. induction n as [|n IH]; intros a x; cbn [zseq In]; [lia|]. rewrite IH. lia. Qed.
Lemma zseq_nodup n : forall a, NoDup (zseq a n).
Proof. induction n as [|n IH]; intros a; cbn [zseq]; constructor; [rewrite zseq_in; lia|apply IH]. Qed.
Lemma zseq_length n : forall a, length (zseq a n) = n.
Proof. induction n; intros a; cbn; auto. Qed.

Lemma scan_props w h ly ry sl sr n : forall y l r ls rs,
  NoDup (scan w h ly ry sl sr n y l r ls rs) /\
  Forall (fun q => (0 <= fst q < w)%Z /\ (0 <= snd q < h)%Z /\ (y <= snd q)%Z) (scan w h ly ry sl sr n y l r ls rs).
Proof.
  induction n as [|n IH]; intros y l r ls rs; cbn [scan]; [split; constructor|].
  destruct ((y <? 0)%Z || (h <=? y)%Z) eqn:E.
  - destruct (IH (y + 1)%Z l r ls rs) as [A B]. split; [exact A|]. eapply Forall_impl; [|exact B]. cbn. intros. lia.
  - destruct (IH (y + 1)%Z (l + if (ly <=? y)%Z then sl else ls)%Z (r + if (ry <=? y)%Z then sr else rs)%Z
      (if (ly <=? y)%Z then sl else ls) (if (ry <=? y)%Z then sr else rs)) as [A B].
    assert (P : forall q, In q (row_pixels w y l r) -> (0 <= fst q < w)%Z /\ snd q = y).
    { intros q I. apply filter_In in I as [I F]. apply in_map_iff in I as (x & <- & _). cbn in *. lia. }
    split.
    + assert (N : NoDup (row_pixels w y l r)).
      { apply NoDup_filter. apply Injective_map_NoDup; [intros u v H; injection H; auto|]. apply zseq_nodup. }
      revert N A B P. generalize (row_pixels w y l r) as u.
      generalize (scan w h ly ry sl sr n (y + 1) (l + (if (ly <=? y)%Z then sl else ls)) (r + (if (ry <=? y)%Z then sr else rs))
        (if (ly <=? y)%Z then sl else ls) (if (ry <=? y)%Z then sr else rs)) as v.
      induction u as [|a u IHu]; intros N A B P; [exact A|]. cbn [app]. inversion N; subst. constructor.
      * intros I. apply in_app_or in I as [I|I]; [contradiction|]. rewrite Forall_forall in B. specialize (B _ I).
        specialize (P a (or_introl eq_refl)). lia.
      * apply IHu; auto. intros. apply P. right. assumption.
    + apply Forall_app. split; [|eapply Forall_impl; [|exact B]; cbn; intros; lia].
      apply Forall_forall. intros q I. apply P in I. lia.
Qed.

Lemma first_step_some a b : exists s, first_step a b = Some s.
Proof. unfold first_step, int_div. destruct (_ =? _)%Z eqn:E; [eauto|]. assert ((snd a - snd b =? 0)%Z = false) as -> by lia. eauto. Qed.
Lemma second_step_some a b : exists s, second_step a b = Some s.
Proof. unfold second_step, int_div. destruct (_ =? _)%Z eqn:E; [eauto|]. assert ((snd a - fst b =? 0)%Z = false) as -> by lia. eauto. Qed.

(** C114: whatever the rectangle, the search of its corners succeeds and no division is by zero; the pixels looked at are
    pixels of the image, each one once. *)
Theorem C114_pixels w h r :
  exists ps, scanned w h (corners r) = Some ps /\ NoDup ps /\ Forall (fun q => (0 <= fst q < w)%Z /\ (0 <= snd q < h)%Z) ps.
Proof.
  unfold scanned.
  destruct (take_some lower (sort_corners (corners r)) 3) as (b & r1 & E1 & L1 & _); [rewrite sort_length; reflexivity|]. rewrite E1.
  destruct (take_some lefter r1 2 L1) as (l & r2 & E2 & L2 & _). rewrite E2.
  destruct (take_some righter r2 1 L2) as (rt & r3 & E3 & L3 & _). rewrite E3.
  destruct (take_some lefter r3 0 L3) as (t & r4 & E4 & L4 & _). rewrite E4.
  destruct (first_step_some b l) as [fl ->]. destruct (second_step_some l t) as [sl ->].
  destruct (first_step_some b rt) as [fr ->]. destruct (second_step_some rt t) as [sr ->].
  eexists. split; [reflexivity|].
  match goal with |- NoDup (scan _ _ ?a ?b ?c ?d ?n ?y ?l ?r ?ls ?rs) /\ _ => destruct (scan_props w h a b c d n y l r ls rs) as [A B] end.
  split; [exact A|]. eapply Forall_impl; [|exact B]. cbn. intros. tauto.
Qed.

Lemma zrange_in a b x : In x (zrange a b) <-> (a <= x <= b)%Z.
Proof. unfold zrange. rewrite zseq_in. lia. Qed.

(** C114: the counts are bounded by the size of the image, and no more pixels are aligned than seen. *)
Theorem C114_counts f r :
  exists total aligned, counts f r = Some (total, aligned) /\ (aligned <= total)%nat /\
    (total <= Z.to_nat (f_cols f) * Z.to_nat (f_rows f))%nat.
Proof.
  unfold counts. destruct (C114_pixels (f_cols f) (f_rows f) r) as (ps & -> & N & F).
  do 2 eexists. split; [reflexivity|]. split; [clear; induction ps as [|a ps IH]; cbn [filter length]; [lia|]; destruct (is_aligned f a (vtheta r) (vprec r)); cbn [length]; lia|].
  set (g := pixels_of 0 (f_cols f - 1) 0 (f_rows f - 1)).
  assert (L : length g = (Z.to_nat (f_cols f) * Z.to_nat (f_rows f))%nat).
  { unfold g, pixels_of. assert (G : forall xs ys : list Z, length (flat_map (fun y => map (fun x : Z => (x, y)) xs) ys) = (length xs * length ys)%nat).
    { intros xs ys. induction ys as [|y ys IH]; cbn [flat_map length]; [lia|]. rewrite app_length, map_length, IH. lia. }
    rewrite G. unfold zrange. rewrite !zseq_length. f_equal; lia. }
  rewrite <- L. apply NoDup_incl_length; [exact N|]. intros q I. rewrite Forall_forall in F. specialize (F q I).
  unfold g, pixels_of. apply in_flat_map. exists (snd q). split; [apply zrange_in; lia|].
  apply in_map_iff. exists (fst q). split; [destruct q; reflexivity|apply zrange_in; lia].
Qed.

(** C114, refuted: of a horizontal rectangle, only the first column is looked at. *)
Lemma truncate_IZR n : truncate (IZR n) = n.
Proof.
  assert (I : forall m, Int_part (IZR m) = m).
  { intros m.
    unfold Int_part. pose proof (tech_up (IZR m) (m + 1)) as T. rewrite <- T; [lia| |]; rewrite plus_IZR; lra. }
  unfold truncate. destruct (rle 0 (IZR n)); [apply I|]. rewrite <- opp_IZR, I. lia.
Qed.

Lemma column w h x ly ry sl n : forall y, (0 <= x < w)%Z -> (0 <= y)%Z -> (y + Z.of_nat n <= h)%Z -> (ly = y + Z.of_nat n - 1)%Z ->
  scan w h ly ry sl 0 n y x x 0 0 = map (fun y => (x, y)) (zseq y n).
Proof.
  induction n as [|n IH]; intros y X Y H L; [reflexivity|]. cbn [scan zseq map].
  assert ((y <? 0)%Z || (h <=? y)%Z = false) as -> by lia.
  assert (R : row_pixels w y x x = [(x, y)]).
  { unfold row_pixels, zrange. replace (Z.to_nat (x - x + 1)) with 1%nat by lia. cbn [zseq map filter fst].
    assert (negb ((x <? 0)%Z || (w <=? x)%Z) = true) as -> by lia. reflexivity. }
  rewrite R. cbn [app]. f_equal. assert ((if (ry <=? y)%Z then 0 else 0)%Z = 0%Z) as -> by (destruct (ry <=? y)%Z; reflexivity).
  rewrite Z.add_0_r. destruct n as [|n]; [reflexivity|].
  assert ((ly <=? y)%Z = false) as -> by lia. rewrite Z.add_0_r. apply IH; lia.
Qed.

Ltac corner_search :=
  unfold take_corner, best_corner, lower, lefter, righter; cbn [fold_left fst snd];
  repeat (match goal with |- context [if (?u <? ?v)%Z then _ else _] => first
    [ replace (u <? v)%Z with true by lia | replace (u <? v)%Z with false by lia ] end; cbn [fst snd]);
  cbn [remove_corner]; unfold pixel_eqb; cbn [fst snd];
  repeat (match goal with |- context [if ?b then _ else _] => first
    [ replace b with true by lia | replace b with false by lia ] end); reflexivity.

Lemma four_corners w h a c u v :
  (0 <= a < c)%Z -> (c < w)%Z -> (0 <= u < v)%Z -> (v < h)%Z ->
  forall l, sort_corners l = [(a, u); (a, v); (c, u); (c, v)] -> scanned w h l = Some (map (fun j => (a, j)) (zrange u v)).
Proof.
  intros A C K H l S.
  assert (T1 : take_corner lower [(a, u); (a, v); (c, u); (c, v)] = Some ((a, u), [(a, v); (c, u); (c, v)])) by (corner_search).
  assert (T2 : take_corner lefter [(a, v); (c, u); (c, v)] = Some ((a, v), [(c, u); (c, v)])) by (corner_search).
  assert (T3 : take_corner righter [(c, u); (c, v)] = Some ((c, u), [(c, v)])) by (corner_search).
  assert (T4 : take_corner lefter [(c, v)] = Some ((c, v), [])) by (corner_search).
  unfold scanned. rewrite S, T1, T2, T3, T4. cbn [map fold_left fst snd].
  assert (F1 : first_step (a, u) (a, v) = Some 0%Z).
  { unfold first_step, int_div. cbn [fst snd]. rewrite Z.sub_diag. destruct (_ =? _)%Z eqn:E; [reflexivity|].
    assert ((u - v =? 0)%Z = false) as -> by lia. rewrite Z.quot_0_l by lia. reflexivity. }
  assert (F2 : first_step (a, u) (c, u) = Some 0%Z) by (unfold first_step; cbn [fst snd]; rewrite Z.eqb_refl; reflexivity).
  assert (F3 : second_step (c, u) (c, v) = Some 0%Z).
  { unfold second_step, int_div. cbn [fst snd]. rewrite Z.sub_diag. destruct (_ =? _)%Z eqn:E; [reflexivity|].
    assert ((u - c =? 0)%Z = false) as -> by lia. rewrite Z.quot_0_l by lia. reflexivity. }
  destruct (second_step_some (a, v) (c, v)) as [sl F4].
  rewrite F1, F2, F3, F4. f_equal. replace (Z.max _ _) with v by lia. unfold zrange. apply column; lia.
Qed.

Ltac corner_sort a c :=
  assert (S1 : forall u v, smaller (a, u) (c, v) = true) by (intros; unfold smaller; cbn [fst snd]; destruct (a =? c)%Z eqn:E; lia);
  assert (S2 : forall u v, smaller (c, u) (a, v) = false) by (intros; unfold smaller; cbn [fst snd]; destruct (c =? a)%Z eqn:E; lia);
  assert (S3 : forall x u v, (u < v)%Z -> smaller (x, u) (x, v) = true) by (intros; unfold smaller; cbn [fst snd]; rewrite Z.eqb_refl; lia);
  assert (S4 : forall x u v, (u < v)%Z -> smaller (x, v) (x, u) = false) by (intros; unfold smaller; cbn [fst snd]; rewrite Z.eqb_refl; lia);
  unfold sort_corners; cbn [fold_right insert_corner]; do 5 (rewrite ?S1, ?S2, ?S3, ?S4 by lia; cbn [insert_corner]); reflexivity.

Theorem C114_horizontal_refuted w h a c y k theta prec p :
  (0 <= a < c)%Z -> (c < w)%Z -> (0 < k <= y)%Z -> (y + k < h)%Z ->
  scanned w h (corners (mkVrect (IZR a) (IZR y) (IZR c) (IZR y) (IZR (2 * k)) theta 1 0 prec p)) =
  Some (map (fun j => (a, j)) (zrange (y - k) (y + k))).
Proof.
  intros A C K H. unfold corners. cbn [vx1 vy1 vx2 vy2 vwidth vdx vdy].
  rewrite !Rmult_0_l, !Rminus_0_r, !Rplus_0_r, !Rmult_1_l.
  replace (IZR (2 * k) / 2) with (IZR k) by (rewrite mult_IZR; field).
  rewrite <- !plus_IZR, <- !minus_IZR, !truncate_IZR.
  apply (four_corners w h a c); try lia. corner_sort a c.
Qed.

(** C114, refuted: also of an upright rectangle, only the first column is looked at. *)
Theorem C114_vertical_refuted w h x u v k theta prec p :
  (0 < k <= x)%Z -> (x + k < w)%Z -> (0 <= u < v)%Z -> (v < h)%Z ->
  scanned w h (corners (mkVrect (IZR x) (IZR u) (IZR x) (IZR v) (IZR (2 * k)) theta 0 1 prec p)) =
  Some (map (fun j => (x - k, j)%Z) (zrange u v)).
Proof.
  intros A C K H. unfold corners. cbn [vx1 vy1 vx2 vy2 vwidth vdx vdy].
  rewrite !Rmult_0_l, !Rminus_0_r, !Rplus_0_r, !Rmult_1_l.
  replace (IZR (2 * k) / 2) with (IZR k) by (rewrite mult_IZR; field).
  rewrite <- !plus_IZR, <- !minus_IZR, !truncate_IZR.
  apply (four_corners w h (x - k) (x + k)); try lia. corner_sort (x - k)%Z (x + k)%Z.
Qed.

(** C114, refuted: of a tilted rectangle, pixels of the inside are not looked at, and pixels of the
    outside are. *)
Theorem C114_tilted_refuted theta prec p :
  let r := mkVrect 10 10 16 18 10 theta (3 / 5) (4 / 5) prec p in
  exists ps, scanned 100 100 (corners r) = Some ps /\
    (~ inside r (0, 21)%Z /\ In (0, 21)%Z ps /\ ~ inside r (26, 21)%Z /\ In (26, 21)%Z ps) /\
    (inside r (17, 13)%Z /\ ~ In (17, 13)%Z ps).
Proof.
  intros r.
  assert (C : corners r = [(6, 13); (12, 21); (20, 15); (14, 7)]%Z).
  { unfold corners, r. cbn [vx1 vy1 vx2 vy2 vwidth vdx vdy].
    replace (10 - 4 / 5 * (10 / 2)) with (IZR 6) by field. replace (10 + 3 / 5 * (10 / 2)) with (IZR 13) by field.
    replace (16 - 4 / 5 * (10 / 2)) with (IZR 12) by field. replace (18 + 3 / 5 * (10 / 2)) with (IZR 21) by field.
    replace (16 + 4 / 5 * (10 / 2)) with (IZR 20) by field. replace (18 - 3 / 5 * (10 / 2)) with (IZR 15) by field.
    replace (10 + 4 / 5 * (10 / 2)) with (IZR 14) by field. replace (10 - 3 / 5 * (10 / 2)) with (IZR 7) by field.
    rewrite !truncate_IZR. reflexivity. }
  assert (M : forall q l, existsb (pixel_eqb q) l = true <-> In q l).
  { intros q l. rewrite existsb_exists. split.
    - intros (y & I & E). unfold pixel_eqb in E. destruct q, y. cbn in E. replace z with z1 by lia. now replace z0 with z2 by lia.
    - intros I. exists q. split; [exact I|]. unfold pixel_eqb. lia. }
  rewrite C. eexists. split; [vm_compute; reflexivity|]. rewrite <- !M.
  unfold inside, r. cbn [fst snd vx1 vy1 vx2 vy2 vwidth vdx vdy].
  repeat split; try (vm_compute; reflexivity); try lra.
  vm_compute. discriminate.
Qed.

(** *** Number of false alarms *)
Lemma fact_pos n : 0 < INR (fact n).
Proof. apply lt_0_INR, lt_O_fact. Qed.

Lemma binomial_next n i p : (i < n)%nat -> 0 < p < 1 ->
  exactly n (S i) p = exactly n i p * (INR (n - S i + 1) / INR (S i) * (p / (1 - p))).
Proof.
  intros L P. unfold exactly. replace (n - S i + 1)%nat with (n - i)%nat by lia.
  replace (n - i)%nat with (S (n - S i)) by lia. set (m := (n - S i)%nat).
  rewrite !fact_simpl, !mult_INR. cbn [pow]. pose proof (fact_pos n). pose proof (fact_pos i). pose proof (fact_pos m).
  assert (0 < INR (S i)) by (apply lt_0_INR; lia). assert (0 < INR (S m)) by (apply lt_0_INR; lia).
  field. repeat split; lra.
Qed.
Lemma successes_next n k j p : (k <= j)%nat -> successes n k (S j) p = successes n k j p + exactly n (S j) p.
Proof.
  intros L. unfold successes. replace (S j - k + 1)%nat with (S (j - k + 1)) by lia. rewrite seq_S, map_app.
  replace (k + (j - k + 1))%nat with (S j) by lia.
  assert (G : forall l x, sum (l ++ [x]) = sum l + x) by (unfold sum; induction l as [|a l IH]; intros x; cbn [app fold_right]; [lra|rewrite IH; lra]).
  cbn [map]. apply G.
Qed.
Lemma successes_first n k p : successes n k k p = exactly n k p.
Proof. unfold successes. replace (k - k + 1)%nat with 1%nat by lia. cbn. lra. Qed.

Lemma tail_loop_spec log_nt n k p c fuel : 0 < p < 1 -> forall i, (k <= i)%nat -> (i + fuel <= n)%nat ->
  exists j, (i <= j <= i + fuel)%nat /\
    tail_loop log_nt fuel n (S i) p (c * exactly n i p) (c * successes n k i p) = c * successes n k j p.
Proof.
  intros P. induction fuel as [|fuel IH]; intros i K N; cbn [tail_loop]; [exists i; split; [lia|reflexivity]|].
  replace (c * exactly n i p * (INR (n - S i + 1) / INR (S i) * (p / (1 - p)))) with (c * exactly n (S i) p)
    by (rewrite (binomial_next n i p) by (auto; lia); ring).
  replace (c * successes n k i p + c * exactly n (S i) p) with (c * successes n k (S i) p)
    by (rewrite successes_next by lia; ring).
  match goal with |- context [if ?b then _ else _] => destruct b end.
  - exists (S i). split; [lia|reflexivity].
  - destruct (IH (S i)) as (j & J & E); [lia..|]. exists j. split; [lia|exact E].
Qed.

(** the first term *)
Lemma first_term lg n k p : is_log_gamma lg -> (k <= n)%nat -> 0 < p < 1 ->
  exp (log1term lg n k p) = exp (INR n + 1) / INR (fact n) * exactly n k p.
Proof.
  intros G L P. unfold log1term. rewrite (G k), (G (n - k)%nat).
  pose proof (fact_pos n). pose proof (fact_pos k). pose proof (fact_pos (n - k)).
  replace (INR n + 1 - ln (INR (fact k)) - ln (INR (fact (n - k))) + INR k * ln p + INR (n - k) * ln (1 - p)) with
    (INR n + 1 + (- ln (INR (fact k)) + (- ln (INR (fact (n - k))) + (INR k * ln p + INR (n - k) * ln (1 - p))))) by ring.
  rewrite !exp_plus, !exp_Ropp, !exp_ln by assumption.
  change (exp (INR k * ln p)) with (Rpower p (INR k)). change (exp (INR (n - k) * ln (1 - p))) with (Rpower (1 - p) (INR (n - k))).
  rewrite !Rpower_pow by lra. unfold exactly. field. repeat split; lra.
Qed.

(** C114, refuted: the number of false alarms is multiplied by e^(n+1)/n!: what is given back is
    the logarithm of the probability of [k] to [j] aligned pixels out of [n], times this factor. *)
Theorem C114_factor_refuted lg log_nt n k p :
  is_log_gamma lg -> (0 < k < n)%nat -> 0 < p < 1 ->
  equal_zero (exp (INR n + 1) / INR (fact n) * exactly n k p) = false ->
  exists j, (k <= j <= n)%nat /\
    nfa lg log_nt n k p = - log10 (exp (INR n + 1) / INR (fact n) * successes n k j p) - log_nt.
Proof.
  intros G K P Z. unfold nfa.
  assert ((n =? 0)%nat || (k =? 0)%nat = false) as -> by lia. assert ((n =? k)%nat = false) as -> by lia.
  rewrite (first_term lg n k p G) by (auto; lia). rewrite Z.
  destruct (tail_loop_spec log_nt n k p (exp (INR n + 1) / INR (fact n)) (n - k) P k) as (j & J & E); [lia..|].
  rewrite successes_first in E. exists j. split; [lia|]. rewrite E. reflexivity.
Qed.

Lemma exactly_pos n i p : 0 < p < 1 -> 0 < exactly n i p.
Proof.
  intros P. unfold exactly. pose proof (fact_pos n). pose proof (fact_pos i). pose proof (fact_pos (n - i)).
  assert (0 < p ^ i) by (apply pow_lt; lra). assert (0 < (1 - p) ^ (n - i)) by (apply pow_lt; lra).
  repeat apply Rmult_lt_0_compat; try assumption. apply Rinv_0_lt_compat. now apply Rmult_lt_0_compat.
Qed.
(** the powers of a ratio, from the first one *)
Fixpoint powers (m : R) (d : nat) : R := match d with O => 0 | S d => powers m d + m ^ S d end.
Lemma powers_sum m d : m <> 1 -> powers m d = (1 - m ^ (d + 1)) / (1 - m) - 1.
Proof.
  intros M. induction d as [|d IH]; [cbn; field; lra|]. cbn [powers]. rewrite IH.
  rewrite !Nat.add_1_r. cbn [pow]. field. lra.
Qed.
(** the terms after one decrease at least as its ratio *)
Lemma ratio_bound n i p m : 0 < p < 1 -> (0 < i)%nat -> m = INR (n - i + 1) / INR i * (p / (1 - p)) ->
  forall d, (i + d <= n)%nat -> exactly n (i + d) p <= exactly n i p * m ^ d.
Proof.
  intros P I M. assert (Q : 0 < p / (1 - p)) by (apply Rdiv_lt_0_compat; lra). induction d as [|d IH]; intros D.
  - rewrite Nat.add_0_r. cbn [pow]. lra.
  - rewrite Nat.add_succ_r. rewrite binomial_next by (auto; lia). specialize (IH ltac:(lia)).
    pose proof (exactly_pos n (i + d) p P). pose proof (exactly_pos n i p P).
    assert (A : INR (n - S (i + d) + 1) / INR (S (i + d)) <= INR (n - i + 1) / INR i).
    { assert (0 < INR i) by (apply lt_0_INR; lia). assert (INR i <= INR (S (i + d))) by (apply le_INR; lia).
      assert (INR (n - S (i + d) + 1) <= INR (n - i + 1)) by (apply le_INR; lia). pose proof (pos_INR (n - S (i + d) + 1)).
      unfold Rdiv. apply Rmult_le_compat; [assumption|left; apply Rinv_0_lt_compat; lra|assumption|apply Rinv_le_contravar; lra]. }
    assert (0 <= INR (n - S (i + d) + 1) / INR (S (i + d))).
    { apply Rmult_le_pos; [apply pos_INR|]. left. apply Rinv_0_lt_compat. apply lt_0_INR. lia. }
    replace (exactly n i p * m ^ S d) with (exactly n i p * m ^ d * m) by (cbn [pow]; ring).
    apply Rmult_le_compat; [lra|apply Rmult_le_pos; lra|exact IH|]. rewrite M. apply Rmult_le_compat_r; lra.
Qed.
Lemma rest_bound n k i p m : 0 < p < 1 -> (0 < i)%nat -> (k <= i)%nat -> m = INR (n - i + 1) / INR i * (p / (1 - p)) ->
  forall d, (i + d <= n)%nat -> successes n k (i + d) p - successes n k i p <= exactly n i p * powers m d.
Proof.
  intros P I K M. induction d as [|d IH]; intros D.
  - rewrite Nat.add_0_r. cbn [powers]. lra.
  - rewrite Nat.add_succ_r, successes_next by lia. cbn [powers]. specialize (IH ltac:(lia)).
    pose proof (ratio_bound n i p m P I M (S d) D) as R. rewrite Nat.add_succ_r in R. lra.
Qed.
Lemma tail_loop_close log_nt n k p c fuel : 0 < p <= / 2 -> 0 < c -> forall i, (k <= i)%nat -> (i + fuel = n)%nat ->
  exists j, (i <= j <= n)%nat /\
    tail_loop log_nt fuel n (S i) p (c * exactly n i p) (c * successes n k i p) = c * successes n k j p /\
    c * (successes n k n p - successes n k j p) <= / 10 * Rabs (- log10 (c * successes n k j p) - log_nt) * (c * successes n k j p).
Proof.
  intros P C. assert (P' : 0 < p < 1) by lra.
  assert (POS : forall i, (k <= i)%nat -> 0 < successes n k i p).
  { intros i L. induction L as [|i L IH]; [rewrite successes_first; apply exactly_pos; lra|].
    rewrite successes_next by lia. pose proof (exactly_pos n (S i) p P'). lra. }
  induction fuel as [|fuel IH]; intros i K N; cbn [tail_loop].
  - exists i. split; [lia|]. split; [reflexivity|]. replace n with i by lia.
    pose proof (Rabs_pos (- log10 (c * successes i k i p) - log_nt)).
    replace n with i in POS by lia. pose proof (POS i K). rewrite Rminus_diag_eq by reflexivity.
    rewrite Rmult_0_r. apply Rmult_le_pos; [lra|]. apply Rmult_le_pos; lra.
  - replace (c * exactly n i p * (INR (n - S i + 1) / INR (S i) * (p / (1 - p)))) with (c * exactly n (S i) p)
      by (rewrite (binomial_next n i p) by (auto; lia); ring).
    replace (c * successes n k i p + c * exactly n (S i) p) with (c * successes n k (S i) p)
      by (rewrite successes_next by lia; ring).
    match goal with |- context [if ?b then _ else _] => destruct b eqn:B end.
    + exists (S i). split; [lia|]. split; [reflexivity|]. apply andb_true_iff in B as [B1 B2].
      rewrite rlt_iff in B1, B2. set (m := INR (n - S i + 1) / INR (S i) * (p / (1 - p))) in *.
      assert (M : m < 1).
      { assert (p / (1 - p) <= 1) by (apply (Rmult_le_reg_r (1 - p)); [lra|]; unfold Rdiv; rewrite Rmult_assoc, Rinv_l by lra; lra).
        assert (0 < p / (1 - p)) by (apply Rdiv_lt_0_compat; lra).
        assert (0 <= INR (n - S i + 1) / INR (S i)) by (apply Rmult_le_pos; [apply pos_INR|left; apply Rinv_0_lt_compat, lt_0_INR; lia]).
        unfold m. nra. }
      replace (n - S i + 1)%nat with (n - S i + 1)%nat in B2 by lia. rewrite <- powers_sum in B2 by lra.
      pose proof (rest_bound n k (S i) p m P' ltac:(lia) ltac:(lia) eq_refl (n - S i) ltac:(lia)) as R.
      replace (S i + (n - S i))%nat with n in R by lia.
      assert (c * (successes n k n p - successes n k (S i) p) <= c * (exactly n (S i) p * powers m (n - S i))) by (apply Rmult_le_compat_l; lra).
      lra.
    + destruct (IH (S i)) as (j & J & E & F); [lia..|]. exists j. split; [lia|]. now split.
Qed.

(** C114: of the sum of the probabilities times this factor, what is left out is at most a tenth of
    the score times what is kept. *)
Theorem C114_truncation lg log_nt n k p :
  is_log_gamma lg -> (0 < k < n)%nat -> 0 < p <= / 2 ->
  let factor := exp (INR n + 1) / INR (fact n) in
  let whole := factor * successes n k n p in
  equal_zero (factor * exactly n k p) = false ->
  exists part, 0 < part <= whole /\ nfa lg log_nt n k p = - log10 part - log_nt /\
    whole - part <= / 10 * Rabs (nfa lg log_nt n k p) * part.
Proof.
  intros G K P factor whole Z. assert (P' : 0 < p < 1) by lra.
  assert (C : 0 < factor) by (apply Rdiv_lt_0_compat; [apply exp_pos|apply fact_pos]).
  destruct (tail_loop_close log_nt n k p factor (n - k) P C k) as (j & J & E & F); [lia..|].
  exists (factor * successes n k j p).
  assert (N : nfa lg log_nt n k p = - log10 (factor * successes n k j p) - log_nt).
  { unfold nfa. assert ((n =? 0)%nat || (k =? 0)%nat = false) as -> by lia. assert ((n =? k)%nat = false) as -> by lia.
    rewrite (first_term lg n k p G) by (auto; lia). fold factor. rewrite Z. rewrite successes_first in E. now rewrite E. }
  assert (POS : forall i, (k <= i)%nat -> 0 < successes n k i p).
  { intros i L. induction L as [|i L IH]; [rewrite successes_first; apply exactly_pos; lra|].
    rewrite successes_next by lia. pose proof (exactly_pos n (S i) p P'). lra. }
  assert (MON : forall d, successes n k j p <= successes n k (j + d) p).
  { induction d as [|d IH]; [rewrite Nat.add_0_r; lra|]. rewrite Nat.add_succ_r, successes_next by lia.
    pose proof (exactly_pos n (S (j + d)) p P'). lra. }
  specialize (MON (n - j)%nat). replace (j + (n - j))%nat with n in MON by lia.
  rewrite N. unfold whole. split; [split|split; [reflexivity|]].
  - apply Rmult_lt_0_compat; [lra|apply POS; lia].
  - apply Rmult_le_compat_l; lra.
  - lra.
Qed.

(** C114: when the first term is close to zero, it is used alone if more pixels are aligned than
    expected, and the probability is taken as one otherwise. *)
Theorem C114_vanishing lg log_nt n k p :
  is_log_gamma lg -> (0 < k < n)%nat -> 0 < p < 1 ->
  let term := exp (INR n + 1) / INR (fact n) * exactly n k p in
  equal_zero term = true ->
  (INR n * p < INR k -> nfa lg log_nt n k p = - log10 term - log_nt) /\
  (INR k <= INR n * p -> nfa lg log_nt n k p = - log10 1 - log_nt).
Proof.
  intros G K P term Z. unfold nfa.
  assert ((n =? 0)%nat || (k =? 0)%nat = false) as -> by lia. assert ((n =? k)%nat = false) as -> by lia.
  pose proof (first_term lg n k p G ltac:(lia) P) as T. fold term in T. rewrite T, Z. split; intros L.
  - assert (rlt (INR n * p) (INR k) = true) as -> by now apply rlt_iff. unfold log10. rewrite <- T, ln_exp. unfold Rdiv. ring.
  - assert (rlt (INR n * p) (INR k) = false) as -> by now apply rlt_false. unfold log10. rewrite ln_1. unfold Rdiv. ring.
Qed.

(** C114: when no pixel or all the pixels are aligned, it is the number of false alarms. *)
Theorem C114_all_aligned lg log_nt n p : (0 < n)%nat -> 0 < p ->
  nfa lg log_nt n n p = - log10 (successes n n n p) - log_nt /\ nfa lg log_nt n 0 p = - log10 1 - log_nt.
Proof.
  intros N P. unfold nfa. assert ((n =? 0)%nat || (n =? 0)%nat = false) as -> by lia. rewrite Nat.eqb_refl.
  assert ((n =? 0)%nat || (0 =? 0)%nat = true) as -> by lia. rewrite successes_first. unfold exactly, log10.
  rewrite Nat.sub_diag. cbn [pow fact]. pose proof (fact_pos n). split; [|rewrite ln_1; unfold Rdiv; ring].
  replace (INR (fact n) / (INR (fact n) * INR 1) * p ^ n * 1) with (p ^ n) by (cbn; field; lra).
  rewrite <- (Rpower_pow n p P). unfold Rpower. rewrite ln_exp. unfold Rdiv. ring.
Qed.

Lemma not_zero a : dbl_min <= a -> equal_zero a = false.
Proof.
  intros H. assert (0 < dbl_min) by (unfold dbl_min; apply powerRZ_lt; lra). unfold equal_zero.
  destruct (Req_EM_T a 0); [lra|]. rewrite (Rabs_pos_eq a) by lra.
  assert (rlt a dbl_min = false) as -> by (apply rlt_false; lra). apply rle_false.
  replace (a / a) with 1 by (field; lra). unfold dbl_epsilon.
  replace (-52)%Z with (-7 + -45)%Z by reflexivity. rewrite powerRZ_add by lra.
  assert (powerRZ 2 (-45) <= 1).
  { change (powerRZ 2 (-45)) with (/ 2 ^ Pos.to_nat 45). rewrite <- Rinv_1. apply Rinv_le_contravar; [lra|]. apply pow_R1_Rle. lra. }
  assert (0 < powerRZ 2 (-45)) by (apply powerRZ_lt; lra). assert (powerRZ 2 (-7) = / 128) as -> by (change (powerRZ 2 (-7)) with (/ 2 ^ Pos.to_nat 7); f_equal; change (Pos.to_nat 7) with 7%nat; cbn [pow]; lra). lra.
Qed.

Lemma dbl_min_small : dbl_min <= / 2.
Proof.
  unfold dbl_min. replace (-1022)%Z with (-1 + -1021)%Z by reflexivity. rewrite powerRZ_add by lra.
  assert (powerRZ 2 (-1021) <= 1).
  { change (powerRZ 2 (-1021)) with (/ 2 ^ Pos.to_nat 1021). rewrite <- Rinv_1. apply Rinv_le_contravar; [lra|]. apply pow_R1_Rle. lra. }
  assert (powerRZ 2 (-1) = / 2) as -> by (change (powerRZ 2 (-1)) with (/ 2 ^ Pos.to_nat 1); f_equal; change (Pos.to_nat 1) with 1%nat; cbn [pow]; lra). assert (0 < powerRZ 2 (-1021)) by (apply powerRZ_lt; lra). nra.
Qed.

(** C114, refuted: so the score can be that of more than three times the false alarms. *)
Theorem C114_value_refuted lg log_nt : is_log_gamma lg ->
  nfa lg log_nt 2 1 (/ 8) < - log10 (3 * successes 2 1 2 (/ 8)) - log_nt.
Proof.
  intros G.
  assert (E1 : 2 <= exp 1) by (left; pose proof (exp_ineq1 1 ltac:(lra)); lra).
  assert (E3 : 8 <= exp (INR 2 + 1)).
  { replace (INR 2 + 1) with (1 + (1 + 1)) by (cbn; lra). rewrite !exp_plus.
    assert (4 <= exp 1 * exp 1) by nra. nra. }
  assert (B1 : exactly 2 1 (/ 8) = 14 / 64) by (unfold exactly; cbn; field).
  assert (B2 : exactly 2 2 (/ 8) = 1 / 64) by (unfold exactly; cbn; field).
  assert (S1 : successes 2 1 1 (/ 8) = 14 / 64) by (rewrite successes_first; exact B1).
  assert (S2 : successes 2 1 2 (/ 8) = 15 / 64) by (rewrite successes_next, S1, B2 by lia; lra).
  assert (F : INR (fact 2) = 2) by (cbn; lra).
  destruct (C114_factor_refuted lg log_nt 2 1 (/ 8) G) as (j & J & ->); [lia|lra| |].
  - apply not_zero. pose proof dbl_min_small. rewrite B1, F. lra.
  - assert (L : forall x y, 0 < x -> x < y -> log10 x < log10 y).
    { intros x y X Y. unfold log10. apply Rmult_lt_compat_r; [apply Rinv_0_lt_compat; rewrite <- ln_1; apply ln_increasing; lra|apply ln_increasing; assumption]. }
    assert (14 / 64 <= successes 2 1 j (/ 8)) by (assert (j = 1%nat \/ j = 2%nat) as [->| ->] by lia; lra).
    assert (log10 (3 * successes 2 1 2 (/ 8)) < log10 (exp (INR 2 + 1) / INR (fact 2) * successes 2 1 j (/ 8))); [|lra].
    apply L; rewrite S2; [lra|]. rewrite F. assert (4 <= exp (INR 2 + 1) / 2) by lra. nra.
Qed.

(** Such a function exists. *)
Example log_gamma_exists : exists lg, is_log_gamma lg.
Proof.
  exists (fun x => ln (INR (fact (Z.to_nat (Int_part x) - 1)))). intros n.
  replace (INR n + 1) with (IZR (Z.of_nat n + 1)) by (rewrite plus_IZR, INR_IZR_INZ; reflexivity).
  pose proof (truncate_IZR (Z.of_nat n + 1)) as T. unfold truncate in T.
  assert (rle 0 (IZR (Z.of_nat n + 1)) = true) as E by (apply rle_iff, IZR_le; lia). rewrite E in T. rewrite T.
  do 3 f_equal. lia.
Qed.

(** A rectangle of width 2 whose score is best when it is narrow: the width is reduced to a half,
    which passes the threshold. *)
Example C114_example : forall r, vwidth r = 2 ->
  let '(r', s) := rect_improve (fun r => 1 - vwidth r) 0 r in vwidth r' = / 2 /\ s = / 2.
Proof.
  intros r W. set (score := fun r => 1 - vwidth r).
  assert (L : forall x y, score x <= score y -> rlt (score y) (score x) = false) by (intros; apply rlt_false; assumption).
  assert (E1 : stage score 0 (fun _ => true) finer (r, score r) = (r, score r)).
  { unfold stage. cbn [snd fst]. assert (rlt 0 (score r) = false) as -> by (apply rlt_false; unfold score; lra).
    cbn [tries snd]. do 5 (rewrite L by (unfold score; cbn; lra); cbn [snd]). reflexivity. }
  assert (H : forall x, wide x = true <-> 1 <= vwidth x) by (intros; unfold wide, delta; rewrite rle_iff; lra).
  assert (H' : forall x, wide x = false <-> vwidth x < 1) by (intros; unfold wide, delta; rewrite rle_false; lra).
  set (r3 := narrower (narrower (narrower r))).
  assert (W3 : vwidth r3 = / 2) by (unfold r3; cbn; unfold delta; lra).
  assert (U : forall x y, score y < score x -> rlt (score y) (score x) = true) by (intros; apply rlt_iff; assumption).
  assert (E2 : stage score 0 wide narrower (r, score r) = (r3, score r3)).
  { unfold stage. cbn [snd fst]. assert (rlt 0 (score r) = false) as -> by (apply rlt_false; unfold score; lra).
    cbn [tries]. assert (wide r = true) as -> by (apply H; lra). cbn [snd]. rewrite U by (unfold score; cbn; unfold delta; lra).
    assert (wide (narrower r) = true) as -> by (apply H; cbn; unfold delta; lra). cbn [snd]. rewrite U by (unfold score; cbn; unfold delta; lra).
    assert (wide (narrower (narrower r)) = true) as -> by (apply H; cbn; unfold delta; lra). cbn [snd]. rewrite U by (unfold score; cbn; unfold delta; lra).
    fold r3. assert (wide r3 = false) as -> by (apply H'; lra). reflexivity. }
  assert (E3 : forall g c, stage score 0 g c (r3, score r3) = (r3, score r3)).
  { intros g c. unfold stage. cbn [snd]. assert (rlt 0 (score r3) = true) as -> by (apply rlt_iff; unfold score; lra). reflexivity. }
  unfold rect_improve. rewrite E1, E2, !E3. split; [exact W3|unfold score; lra].
Qed.

(** A horizontal rectangle of 9 by 5 pixels: 5 of them are looked at. *)
Example C114_horizontal_example : forall theta prec p, exists ps,
  scanned 20 20 (corners (mkVrect (IZR 4) (IZR 10) (IZR 12) (IZR 10) (IZR 4) theta 1 0 prec p)) = Some ps /\ length ps = 5%nat.
Proof.
  intros. eexists. split; [apply (C114_horizontal_refuted 20 20 4 12 10 2); lia|]. reflexivity.
Qed.

Example C114_vanishing_example : equal_zero (exp (INR 2 + 1) / INR (fact 2) * exactly 2 1 (powerRZ 2 (-1100))) = true.
Proof.
  assert (B : forall q, exactly 2 1 q = 2 * q * (1 - q)) by (intros q; unfold exactly; cbn; field).
  assert (S : powerRZ 2 (-1100) = powerRZ 2 (-1022) * powerRZ 2 (-78)) by (rewrite <- powerRZ_add by lra; reflexivity).
  assert (S' : powerRZ 2 (-78) = powerRZ 2 (-52) * powerRZ 2 (-26)) by (rewrite <- powerRZ_add by lra; reflexivity).
  assert (D : 0 < powerRZ 2 (-1022)) by (apply powerRZ_lt; lra). assert (D' : 0 < powerRZ 2 (-52)) by (apply powerRZ_lt; lra).
  assert (L : forall n, (7 <= n)%nat -> 0 < / 2 ^ n <= / 128).
  { intros n N. split; [apply Rinv_0_lt_compat, pow_lt; lra|]. apply Rinv_le_contravar; [lra|]. replace 128 with (2 ^ 7) by lra. apply Rle_pow; lra || lia. }
  assert (H26 : 0 < powerRZ 2 (-26) <= / 128) by (change (powerRZ 2 (-26)) with (/ 2 ^ Pos.to_nat 26); apply L; lia).
  assert (H52 : 0 < powerRZ 2 (-52) <= / 128) by (change (powerRZ 2 (-52)) with (/ 2 ^ Pos.to_nat 52); apply L; lia).
  assert (H1022 : 0 < powerRZ 2 (-1022) <= / 128) by (change (powerRZ 2 (-1022)) with (/ 2 ^ Pos.to_nat 1022); apply L; lia).
  assert (E : exp (INR 2 + 1) <= 27).
  { replace (INR 2 + 1) with (1 + (1 + 1)) by (cbn; lra). rewrite !exp_plus. pose proof exp_le_3. pose proof (exp_pos 1). assert (exp 1 * exp 1 <= 9) by nra. nra. }
  assert (E0 := exp_pos (INR 2 + 1)). assert (F : INR (fact 2) = 2) by (cbn; lra).
  rewrite B, F. set (q := powerRZ 2 (-1100)) in *. set (e := exp (INR 2 + 1)) in *.
  set (a := e / 2 * (2 * q * (1 - q))).
  set (D0 := powerRZ 2 (-1022)) in *. set (E52 := powerRZ 2 (-52)) in *.
  assert (Q : 0 < q /\ q <= D0 * E52 * / 128).
  { rewrite S, S', <- Rmult_assoc. assert (0 < D0 * E52) by now apply Rmult_lt_0_compat. split; [apply Rmult_lt_0_compat; lra|apply Rmult_le_compat_l; lra]. }
  assert (W : D0 * E52 <= D0 * / 128) by (apply Rmult_le_compat_l; lra).
  assert (A : 0 < a <= 27 * q).
  { replace a with (e * q * (1 - q)) by (unfold a; field). assert (0 < e * q) by (apply Rmult_lt_0_compat; lra).
    assert (e * q <= 27 * q) by (apply Rmult_le_compat_r; lra). split; [apply Rmult_lt_0_compat; lra|].
    assert (e * q * (1 - q) <= e * q * 1) by (apply Rmult_le_compat_l; lra). lra. }
  unfold equal_zero. destruct (Req_EM_T a 0); [reflexivity|]. rewrite Rabs_pos_eq by lra.
  assert (a < dbl_min) by (unfold dbl_min; fold D0; lra).
  assert (rlt a dbl_min = true) as -> by now apply rlt_iff. apply rle_iff. unfold dbl_min, dbl_epsilon. fold D0. fold E52.
  apply (Rmult_le_reg_r D0); [lra|]. unfold Rdiv. rewrite Rmult_assoc, Rinv_l by lra. lra.
Qed.

Print Assumptions C114_steps. Print Assumptions C114_inside. Print Assumptions C114_pixels. Print Assumptions C114_counts.
Print Assumptions C114_horizontal_refuted. Print Assumptions C114_factor_refuted. Print Assumptions C114_all_aligned. Print Assumptions C114_value_refuted.
Print Assumptions C114_vertical_refuted. Print Assumptions C114_tilted_refuted. Print Assumptions C114_truncation. Print Assumptions C114_vanishing.
