(** Property C102: morphological reconstruction. *)
From Coq Require Import ZifyBool.
From Verif Require Import GeodesicModel GeodesicSpec.
Local Open Scope Z_scope.

Section Size.
Variables cols rows : Z.
Notation inside := (inside cols rows).
Notation agree := (agree cols rows).
Notation path := (path cols rows).

Lemma in_image_correct : forall p, in_image cols rows p = true <-> inside p.
Proof. intros p. unfold in_image, GeodesicSpec.inside. lia. Qed.
Lemma range_in : forall n z, In z (range n) <-> 0 <= z < n.
Proof.
  intros n z. unfold range. rewrite in_map_iff. split.
  - intros (k & <- & I). apply in_seq in I. lia.
  - intros H. exists (Z.to_nat z). split; [lia|]. apply in_seq. lia.
Qed.
Lemma pixels_in : forall p, In p (pixels cols rows) <-> inside p.
Proof. intros [x y]. unfold pixels. rewrite in_prod_iff, !range_in. reflexivity. Qed.
Lemma around_in : forall se p q, In q (around cols rows se p) <-> inside q /\ In (fst q - fst p, snd q - snd p) se.
Proof.
  intros se p q. unfold around. rewrite filter_In, in_map_iff, in_image_correct. split.
  - intros [(o & <- & I) H]. split; [easy|]. cbn [fst snd]. destruct o as [a b]. cbn [fst snd].
    now replace (fst p + a - fst p) with a by lia; replace (snd p + b - snd p) with b by lia.
  - intros [H I]. split; [|easy]. exists (fst q - fst p, snd q - snd p). split; [|easy]. destruct q. cbn. f_equal; lia.
Qed.

Lemma max_level : forall v (l : list Z), 0 < v -> v <= fold_right Z.max 0 l <-> exists x, In x l /\ v <= x.
Proof.
  intros v l V. induction l as [|y l IH]; cbn [fold_right].
  - split; [lia|now intros (x & [] & _)].
  - rewrite Z.max_le_iff, IH. split.
    + intros [H|(x & I & H)]; [exists y|exists x]; split; auto; [now left|now right].
    + intros (x & [<-|I] & H); [now left|]. right. now exists x.
Qed.
Lemma dilate_level : forall se f p v, 0 < v -> v <= dilate cols rows se f p <->
  exists q, inside q /\ In (fst q - fst p, snd q - snd p) se /\ v <= f q.
Proof.
  intros se f p v V. unfold dilate. rewrite max_level by easy. split.
  - intros (x & I & H). apply in_map_iff in I. destruct I as (q & <- & I). apply around_in in I. exists q. tauto.
  - intros (q & I1 & I2 & H). exists (f q). split; [|easy]. apply in_map. now apply around_in.
Qed.

Section Steps.
Variables (se : list pixel) (mask marker : image).
Notation step := (dilate_step cols rows se mask).
(** the image after [n] steps *)
Definition after (n : nat) : image := Nat.iter n step (imin marker mask).

(** what [n] steps compute *)
Lemma after_level : forall n p v, 0 < v -> inside p ->
  v <= after n p <-> exists q, v <= marker q /\ path se (fun x => v <= mask x) n q p.
Proof.
  induction n as [|n IH]; intros p v V I.
  - cbn. unfold imin. split.
    + intros H. exists p. split; [lia|]. constructor; [easy|lia].
    + intros (q & H & P). inversion P; subst. lia.
  - change (after (S n)) with (step (after n)). unfold dilate_step, imin. rewrite Z.min_glb_iff, dilate_level by easy. split.
    + intros [(r & R & Se & H) M]. apply IH in H; [|easy|easy]. destruct H as (q & Q & P). exists q. split; [easy|]. now apply path_step with r.
    + intros (q & Q & P). inversion P as [|? ? r ? P' I' M S']; subst. split; [|easy]. exists r.
      assert (R : inside r) by now inversion P'. split; [easy|]. split; [easy|]. apply IH; [easy|easy|]. now exists q.
Qed.
End Steps.

Lemma agree_sym : forall f g, agree f g -> agree g f.
Proof. intros f g H p I. symmetry. now apply H. Qed.
Lemma agree_trans : forall f g h, agree f g -> agree g h -> agree f h.
Proof. intros f g h A B p I. rewrite A by easy. now apply B. Qed.
Lemma dilate_agree : forall se f g p, agree f g -> dilate cols rows se f p = dilate cols rows se g p.
Proof.
  intros se f g p H. unfold dilate. f_equal. apply map_ext_in. intros q I. apply around_in in I. now apply H.
Qed.
Lemma step_agree : forall se mask f g, agree f g -> agree (dilate_step cols rows se mask f) (dilate_step cols rows se mask g).
Proof. intros se mask f g H p I. unfold dilate_step, imin. now rewrite (dilate_agree se f g p H). Qed.
Lemma differs_correct : forall f g, differs cols rows f g = false <-> agree f g.
Proof.
  intros f g. unfold differs. split.
  - intros H p I. apply pixels_in in I. destruct (Z.eqb_spec (f p) (g p)) as [E|E]; [easy|].
    assert (K : existsb (fun p => negb (f p =? g p)) (pixels cols rows) = true). { apply existsb_exists. exists p. split; [easy|]. lia. } congruence.
  - intros H. destruct (existsb _ _) eqn:E; [|easy]. apply existsb_exists in E. destruct E as (p & I & N). apply pixels_in in I. specialize (H p I). lia.
Qed.

Section Loop.
Variables (se : list pixel) (mask marker : image).
Notation step := (dilate_step cols rows se mask).
Notation after := (after se mask marker).

Lemma until_spec : forall fuel n res, until_stable cols rows step fuel (after n) = Some res ->
  exists m, (n <= m)%nat /\ res = after (S m) /\ agree (after m) (after (S m)).
Proof.
  induction fuel as [|fuel IH]; intros n res E; [discriminate|]. cbn [until_stable] in E. change (step (after n)) with (after (S n)) in E.
  destruct (differs cols rows (after n) (after (S n))) eqn:D.
  - destruct (IH (S n) res E) as (m & L & R). exists m. split; [lia|easy].
  - injection E as <-. exists n. split; [lia|]. split; [easy|]. now apply differs_correct.
Qed.
Lemma stable_after : forall m, agree (after m) (after (S m)) -> forall k, agree (after m) (after (m + k)).
Proof.
  intros m H. induction k as [|k IH].
  - rewrite Nat.add_0_r. now intros p I.
  - rewrite Nat.add_succ_r. apply agree_trans with (after (S m)); [easy|]. change (after (S m)) with (step (after m)). change (after (S (m + k))) with (step (after (m + k))). now apply step_agree.
Qed.

Hypothesis centre : In (0, 0) se.
Lemma path_longer : forall ok n q p, path se ok n q p -> forall k, path se ok (n + k) q p.
Proof.
  intros ok n q p P. induction k as [|k IH]; [now rewrite Nat.add_0_r|]. rewrite Nat.add_succ_r. apply path_step with p; [easy| | |].
  - now inversion P.
  - now inversion P.
  - now rewrite !Z.sub_diag.
Qed.
Lemma stable_level : forall m p v, agree (after m) (after (S m)) -> 0 < v -> inside p ->
  v <= after (S m) p <-> exists n q, v <= marker q /\ path se (fun x => v <= mask x) n q p.
Proof.
  intros m p v A V I. split.
  - intros H. apply after_level in H; [|easy|easy]. destruct H as (q & H). now exists (S m), q.
  - intros (n & q & Q & P). destruct (Nat.le_gt_cases n (S m)) as [L|L].
    + apply after_level; [easy|easy|]. exists q. split; [easy|]. replace (S m) with (n + (S m - n))%nat by lia. now apply path_longer.
    + assert (G : agree (after (S m)) (after n)).
      { apply agree_trans with (after m); [now apply agree_sym|]. replace n with (m + (n - m))%nat by lia. now apply stable_after. }
      rewrite (G p I). apply after_level; [easy|easy|]. now exists q.
Qed.

(** ** End *)
Hypothesis bytes_mask : bytes mask.
Hypothesis bytes_marker : bytes marker.

Lemma fold_max_bounds : forall l, 0 <= fold_right Z.max 0 l.
Proof. induction l; cbn; lia. Qed.
Lemma after_bounds : forall n p, 0 <= after n p <= mask p.
Proof.
  intros n p. destruct n as [|n].
  - cbn. unfold imin. specialize (bytes_mask p). specialize (bytes_marker p). lia.
  - change (after (S n)) with (step (after n)). unfold dilate_step, imin, dilate. specialize (bytes_mask p).
    pose proof (fold_max_bounds (map (after n) (around cols rows se p))). lia.
Qed.
Lemma after_grows : forall n p, inside p -> after n p <= after (S n) p.
Proof.
  intros n p I. destruct (Z_lt_le_dec 0 (after n p)) as [V|V].
  - apply after_level; [easy|easy|]. destruct (proj1 (after_level se mask marker n p (after n p) V I)) as (q & Q & P); [lia|].
    exists q. split; [easy|]. replace (S n) with (n + 1)%nat by lia. now apply path_longer.
  - pose proof (after_bounds (S n) p). lia.
Qed.
Definition total (f : image) (l : list pixel) : Z := fold_right Z.add 0 (map f l).
Lemma total_le : forall f g l, (forall p, In p l -> f p <= g p) -> total f l <= total g l.
Proof. intros f g l. induction l as [|p l IH]; intros H; unfold total in *; cbn; [lia|]. specialize (IH (fun q I => H q (or_intror I))). specialize (H p (or_introl eq_refl)). lia. Qed.
Lemma total_lt : forall f g l q, (forall p, In p l -> f p <= g p) -> In q l -> f q < g q -> total f l < total g l.
Proof.
  intros f g l q. induction l as [|p l IH]; intros H I L; [easy|]. cbn. unfold total in *. cbn.
  pose proof (total_le f g l (fun x J => H x (or_intror J))) as T. unfold total in T.
  destruct I as [<-|I]; [lia|]. specialize (IH (fun x J => H x (or_intror J)) I L). specialize (H p (or_introl eq_refl)). lia.
Qed.
Lemma total_bounds : forall n, 0 <= total (after n) (pixels cols rows) <= 255 * Z.of_nat (length (pixels cols rows)).
Proof.
  intros n. induction (pixels cols rows) as [|p l IH]; unfold total in *; cbn [map fold_right length]; [lia|].
  pose proof (after_bounds n p). specialize (bytes_mask p). lia.
Qed.
Lemma until_ends : forall fuel n, 255 * Z.of_nat (length (pixels cols rows)) - total (after n) (pixels cols rows) < Z.of_nat fuel ->
  until_stable cols rows step fuel (after n) <> None.
Proof.
  induction fuel as [|fuel IH]; intros n H; [pose proof (total_bounds n); lia|]. cbn [until_stable]. change (step (after n)) with (after (S n)).
  destruct (differs cols rows (after n) (after (S n))) eqn:D; [|easy]. apply IH. unfold differs in D. apply existsb_exists in D. destruct D as (q & I & N).
  assert (L : after n q < after (S n) q) by (pose proof (after_grows n q (proj1 (pixels_in q) I)); lia).
  assert (T : total (after n) (pixels cols rows) < total (after (S n)) (pixels cols rows)).
  { apply total_lt with q; [|easy|easy]. intros p J. apply after_grows. now apply pixels_in. }
  lia.
Qed.
End Loop.

Lemma pixels_length : 0 <= cols -> 0 <= rows -> Z.of_nat (length (pixels cols rows)) = cols * rows.
Proof. intros C R. unfold pixels, range. rewrite prod_length, !map_length, !seq_length. nia. Qed.

(** C102: with the centre in the structuring element, the reconstruction by dilation ends,
    after at most 255 rounds per pixel and one, *)
Theorem C102_dilation_ends : forall marker mask se, 0 <= cols -> 0 <= rows -> In (0, 0) se -> bytes marker -> bytes mask ->
  forall fuel, 255 * (cols * rows) < Z.of_nat fuel -> geodesic_dilation cols rows fuel marker mask se (-1) <> None.
Proof.
  intros marker mask se C R Ce Bm Bk fuel F. unfold geodesic_dilation. cbn [Z.ltb Z.compare].
  apply (until_ends se mask marker Ce Bk Bm fuel 1). rewrite pixels_length by easy. pose proof (total_bounds se mask marker Bk Bm 1). lia.
Qed.

(** and a pixel reaches a level exactly when a pixel of the marker at this level is joined
    to it by a path on which the mask is at this level. *)
Theorem C102_dilation : forall fuel marker mask se result, In (0, 0) se ->
  geodesic_dilation cols rows fuel marker mask se (-1) = Some result ->
  forall p v, inside p -> 0 < v ->
  v <= result p <-> exists n q, v <= marker q /\ path se (fun x => v <= mask x) n q p.
Proof.
  intros fuel marker mask se result Ce E p v I V. unfold geodesic_dilation in E. cbn [Z.ltb Z.compare] in E.
  destruct (until_spec se mask marker fuel 1 result E) as (m & _ & -> & A). now apply stable_level.
Qed.
(** With a number of iterations, paths have this number of steps; with none, the marker is
    copied *)
Theorem C102_dilation_steps : forall fuel marker mask se iterations, 0 < iterations ->
  exists result, geodesic_dilation cols rows fuel marker mask se iterations = Some result /\
  forall p v, inside p -> 0 < v ->
  v <= result p <-> exists q, v <= marker q /\ path se (fun x => v <= mask x) (Z.to_nat iterations) q p.
Proof.
  intros fuel marker mask se iterations H. unfold geodesic_dilation. destruct (Z.ltb_spec iterations 0); [lia|]. destruct (Z.eqb_spec iterations 0); [lia|].
  eexists. split; [reflexivity|]. intros p v I V. now apply (after_level se mask marker).
Qed.
Theorem C102_dilation_none : forall fuel marker mask se, geodesic_dilation cols rows fuel marker mask se 0 = Some marker.
Proof. reflexivity. Qed.

(** ** Erosion *)

Lemma erode_dual : forall se f p, erode cols rows se (inot f) p = 255 - dilate cols rows se f p.
Proof.
  intros se f p. unfold erode, dilate. induction (around cols rows se p) as [|q l IH]; cbn [map fold_right]; [lia|]. rewrite IH. unfold inot. lia.
Qed.
(** two images equal at every pixel, even outside: what the steps produce *)
Definition same (f g : image) : Prop := forall p, f p = g p.
Lemma erode_same : forall se f g, same f g -> same (erode cols rows se f) (erode cols rows se g).
Proof. intros se f g H p. unfold erode. f_equal. apply map_ext. apply H. Qed.
Lemma erode_step_dual : forall se mask d e, same e (inot d) ->
  same (erode_step cols rows se (inot mask) e) (inot (dilate_step cols rows se mask d)).
Proof.
  intros se mask d e H p. unfold erode_step, dilate_step, imax, imin, inot at 1 2.
  rewrite (erode_same se e (inot d) H p), erode_dual. unfold inot. lia.
Qed.
Lemma until_dual : forall se mask fuel d e, same e (inot d) ->
  match until_stable cols rows (dilate_step cols rows se mask) fuel d,
        until_stable cols rows (erode_step cols rows se (inot mask)) fuel e with
  | Some a, Some b => same b (inot a)
  | None, None => True
  | _, _ => False
  end.
Proof.
  intros se mask. induction fuel as [|fuel IH]; intros d e H; [easy|]. cbn [until_stable].
  pose proof (erode_step_dual se mask d e H) as S. set (d' := dilate_step cols rows se mask d) in *. set (e' := erode_step cols rows se (inot mask) e) in *.
  assert (Eq : differs cols rows e e' = differs cols rows d d').
  { unfold differs. apply eq_true_iff_eq. rewrite !existsb_exists. split; intros (p & I & N); exists p; (split; [easy|]); rewrite (H p), (S p) in *; unfold inot in *; lia. }
  rewrite Eq. destruct (differs cols rows d d'); [|easy]. now apply IH.
Qed.

(** the erosion is the dilation of the negated images *)
Theorem C102_duality : forall fuel marker mask se iterations,
  match geodesic_dilation cols rows fuel marker mask se iterations,
        geodesic_erosion cols rows fuel (inot marker) (inot mask) se iterations with
  | Some a, Some b => forall p, b p = 255 - a p
  | None, None => True
  | _, _ => False
  end.
Proof.
  intros fuel marker mask se iterations. unfold geodesic_dilation, geodesic_erosion.
  assert (B : same (imax (inot marker) (inot mask)) (inot (imin marker mask))) by (intros p; unfold imax, imin, inot; lia).
  destruct (iterations <? 0).
  - pose proof (until_dual se mask fuel _ _ (erode_step_dual se mask _ _ B)) as H. exact H.
  - destruct (iterations =? 0); [easy|]. intros p. revert p. induction (Z.to_nat iterations) as [|n IH]; [exact B|]. exact (erode_step_dual se mask _ _ IH).
Qed.

(** hence a pixel sinks to a level exactly when a path at this level joins it to the marker *)
Theorem C102_erosion : forall fuel marker mask se result, In (0, 0) se ->
  geodesic_erosion cols rows fuel marker mask se (-1) = Some result ->
  forall p v, inside p -> v < 255 ->
  result p <= v <-> exists n q, marker q <= v /\ path se (fun x => mask x <= v) n q p.
Proof.
  intros fuel marker mask se result Ce E p v I V. pose proof (C102_duality fuel (inot marker) (inot mask) se (-1)) as D.
  assert (N : forall f, same (inot (inot f)) f) by (intros f x; unfold inot; lia).
  (* the erosion of equal images *)
  assert (X : exists r, geodesic_erosion cols rows fuel (inot (inot marker)) (inot (inot mask)) se (-1) = Some r /\ same r result).
  { revert E. unfold geodesic_erosion. cbn [Z.ltb Z.compare].
    assert (St : forall f g, same f g -> same (erode_step cols rows se (inot (inot mask)) f) (erode_step cols rows se mask g)).
    { intros f g H x. unfold erode_step, imax. now rewrite (erode_same se f g H x), (N mask x). }
    assert (U : forall k f g r, same f g -> until_stable cols rows (erode_step cols rows se mask) k g = Some r ->
      exists r', until_stable cols rows (erode_step cols rows se (inot (inot mask))) k f = Some r' /\ same r' r).
    { induction k as [|k IH]; intros f g r H; [discriminate|]. cbn [until_stable]. pose proof (St f g H) as S.
      assert (Eq : differs cols rows f (erode_step cols rows se (inot (inot mask)) f) = differs cols rows g (erode_step cols rows se mask g)).
      { unfold differs. apply eq_true_iff_eq. rewrite !existsb_exists. split; intros (x & J & M); exists x; (split; [easy|]); rewrite (H x), (S x) in *; easy. }
      rewrite Eq. destruct (differs cols rows g _); [intros Er; now apply (IH _ _ r S)|]. intros Er. injection Er as <-. eexists. split; [reflexivity|easy]. }
    apply U. apply St. intros x. unfold imax. now rewrite (N marker x), (N mask x). }
  destruct X as (r & Er & S). rewrite Er in D. destruct (geodesic_dilation cols rows fuel (inot marker) (inot mask) se (-1)) as [a|] eqn:Ed; [|easy].
  specialize (D p). rewrite S in D. pose proof (C102_dilation fuel (inot marker) (inot mask) se a Ce Ed p (255 - v) I ltac:(lia)) as L.
  assert (Pm : forall (ok ok' : pixel -> Prop) n q x, (forall y, ok y <-> ok' y) -> path se ok n q x -> path se ok' n q x).
  { intros ok ok' n q x H P. induction P; [constructor; [easy|now apply H]|]. apply path_step with p0; try easy. now apply H. }
  split.
  - intros H. destruct (proj1 L ltac:(lia)) as (n & q & Q & P). exists n, q. split; [unfold inot in Q; lia|].
    eapply Pm; [|exact P]. intros y. unfold inot. lia.
  - intros (n & q & Q & P). assert (255 - v <= a p); [|lia]. apply L. exists n, q. split; [unfold inot; lia|].
    eapply Pm; [|exact P]. intros y. unfold inot. lia.
Qed.

(** ** Holes *)

Lemma square_eight : square = eight.
Proof. reflexivity. Qed.

(** filling the holes never darkens a pixel, and leaves the level of every area that reaches
    the first or the last line of the image *)
Theorem C102_holes : forall fuel src junk result, bytes src ->
  fill_hole cols rows fuel src junk = Some result ->
  (forall p, inside p -> src p <= result p) /\
  (forall p q n v, inside p -> (snd q = 0 \/ snd q = rows - 1) -> v < 255 ->
    path eight (fun x => src x <= v) n q p -> result p <= v) /\
  (** a pixel that is not brighter than [v] was reached from the first or the last line, or from a
      column whose end in the last line is not brighter, or from the memory that is not written *)
  (forall p v, inside p -> result p <= v -> v < 255 ->
    exists n q, path eight (fun x => src x <= v) n q p /\
      (snd q = 0 \/ snd q = rows - 1 \/
       (fst q = 0 \/ fst q = cols - 1) /\ src (fst q, rows - 1) <= v \/
       0 < fst q < cols - 1 /\ 0 < snd q < rows - 1 /\ 255 - v <= junk q)).
Proof.
  intros fuel src junk result B E. rewrite <- square_eight. unfold fill_hole in E. destruct (geodesic_dilation cols rows fuel _ _ _ _) as [d|] eqn:Ed; [|discriminate].
  injection E as <-. assert (Ce : In (0, 0) square) by (cbn; tauto). pose proof (C102_dilation _ _ _ _ _ Ce Ed) as L. unfold inot at 1 2 3.
  assert (Pm : forall (ok ok' : pixel -> Prop) n q x, (forall y, ok y -> ok' y) -> path square ok n q x -> path square ok' n q x).
  { intros ok ok' n q x H P. induction P; [constructor; [easy|now apply H]|]. apply path_step with p; try easy. now apply H. }
  split; [|split].
  - intros p I. destruct (Z_lt_le_dec 0 (d p)) as [V|V]; [|specialize (B p); lia].
    destruct (proj1 (L p (d p) I V)) as (n & q & _ & P); [lia|]. inversion P as [? ? M|? ? ? ? ? ? M]; subst; unfold inot in M; lia.
  - intros p q n v I Q V P. assert (255 - v <= d p); [|lia]. apply (L p (255 - v) I); [lia|]. exists n, q. split.
    + assert (Sq : src q <= v) by (clear - P; induction P; easy). unfold hole_marker. destruct Q as [Q|Q]; rewrite Q.
      * rewrite Z.eqb_refl. lia.
      * rewrite Z.eqb_refl. destruct (rows - 1 =? 0); lia.
    + eapply Pm; [|exact P]. intros y. unfold inot. lia.
  - intros p v I H V. destruct (proj1 (L p (255 - v) I ltac:(lia))) as (n & q & Q & P); [lia|]. exists n, q. split.
    + eapply Pm; [|exact P]. intros y. unfold inot. lia.
    + assert (Iq : inside q) by (clear - P; induction P; easy). unfold inside in Iq. unfold hole_marker in Q.
      destruct (snd q =? 0) eqn:E1; [left; lia|]. destruct (snd q =? rows - 1) eqn:E2; [right; left; lia|].
      destruct ((fst q =? 0) || (fst q =? cols - 1)) eqn:E3; [right; right; left; lia|]. right. right. right. lia.
Qed.
(** it ends *)
Theorem C102_holes_end : forall src junk, 0 <= cols -> 0 <= rows -> bytes src -> bytes junk ->
  forall fuel, 255 * (cols * rows) < Z.of_nat fuel -> fill_hole cols rows fuel src junk <> None.
Proof.
  intros src junk C R B J fuel F. unfold fill_hole. pose proof (C102_dilation_ends (hole_marker cols rows src junk) (inot src) square C R) as H.
  assert (Ce : In (0, 0) square) by (cbn; tauto). specialize (H Ce). destruct (geodesic_dilation cols rows fuel _ _ _ _) eqn:E; [easy|].
  exfalso. apply (H) with fuel; try easy.
  - intros p. unfold hole_marker. repeat destruct (_ =? _); cbn [orb]; [specialize (B p)|specialize (B p)| | | |specialize (J p)]; try lia;
      specialize (B (fst p, rows - 1)); lia.
  - intros p. unfold inot. specialize (B p). lia.
Qed.
End Size.

(** ** What fails *)

(** Without its centre, a structuring element may never end: two pixels that exchange their
    values *)
Theorem C102_no_centre_refuted : exists marker mask se, bytes marker /\ bytes mask /\
  forall fuel, geodesic_dilation 2 1 fuel marker mask se (-1) = None.
Proof.
  set (a := fun p : pixel => if fst p =? 0 then 255 else 0). set (white := fun _ : pixel => 255). set (se := [(1, 0); (-1, 0)]).
  exists a, white, se. split; [intros p; unfold a; destruct (_ =? _); lia|]. split; [intros p; unfold white; lia|].
  intros fuel. unfold geodesic_dilation. cbn [Z.ltb Z.compare].
  assert (H : forall k d, (d (0, 0) = 0 /\ d (1, 0) = 255) \/ (d (0, 0) = 255 /\ d (1, 0) = 0) ->
    until_stable 2 1 (dilate_step 2 1 se white) k d = None).
  { induction k as [|k IH]; intros d D; [easy|]. cbn [until_stable].
    assert (E0 : dilate_step 2 1 se white d (0, 0) = Z.min (Z.max (d (1, 0)) 0) 255) by reflexivity.
    assert (E1 : dilate_step 2 1 se white d (1, 0) = Z.min (Z.max (d (0, 0)) 0) 255) by reflexivity.
    assert (Df : differs 2 1 d (dilate_step 2 1 se white d) = true).
    { unfold differs. apply existsb_exists. exists (0, 0). split; [now left|]. rewrite E0. lia. }
    rewrite Df. apply IH. rewrite E0, E1. lia. }
  apply H. left. split; reflexivity.
Qed.

(** with 0 iterations, the result is not under the mask *)
Theorem C102_zero_iterations_refuted : exists marker mask, bytes marker /\ bytes mask /\
  exists result, geodesic_dilation 1 1 0 marker mask [(0, 0)] 0 = Some result /\ mask (0, 0) < result (0, 0).
Proof.
  exists (fun _ => 255), (fun _ => 0). split; [intros p; lia|]. split; [intros p; lia|]. eexists. split; [reflexivity|]. reflexivity.
Qed.

(** a white ring around a black pixel: whether the hole is filled depends on a memory that is
    not written *)
Definition ring : image := fun p => if (fst p =? 1) && (snd p =? 1) then 0 else 255.
Theorem C102_hole_memory_refuted : exists src junk junk', bytes src /\ bytes junk /\ bytes junk' /\
  option_map (fun f => f (1, 1)) (fill_hole 3 3 10 src junk) = Some 255 /\
  option_map (fun f => f (1, 1)) (fill_hole 3 3 10 src junk') = Some 0.
Proof.
  exists ring, (fun _ => 0), (fun _ => 255). split; [intros p; unfold ring; destruct (_ && _); lia|]. split; [intros p; lia|]. split; [intros p; lia|].
  split; vm_compute; reflexivity.
Qed.
(** a black pixel of the first column is on the border of the image, thus not a hole, and
    filled all the same: the columns are compared with the last line *)
Definition notch : image := fun p => if (fst p =? 0) && (snd p =? 1) then 0 else 255.
Theorem C102_hole_border_refuted : exists src junk p, bytes src /\ bytes junk /\ fst p = 0 /\ src p = 0 /\
  option_map (fun f => f p) (fill_hole 3 3 10 src junk) = Some 255.
Proof.
  exists notch, (fun _ => 0), (0, 1). split; [intros p; unfold notch; destruct (_ && _); lia|]. split; [intros p; lia|]. repeat (split; [reflexivity|]). vm_compute. reflexivity.
Qed.

(** ** Examples *)

(** a line of five pixels: the marker floods the mask up to the first zero *)
Definition line5 (l : list Z) : image := fun p => nth (Z.to_nat (fst p)) l 0.
Example dilation_example : option_map (fun f => map f (pixels 5 1))
    (geodesic_dilation 5 1 10 (line5 [0; 200; 0; 0; 0]) (line5 [50; 250; 100; 0; 90]) [(-1, 0); (0, 0); (1, 0)] (-1)) =
  Some [50; 200; 100; 0; 0].
Proof. vm_compute. reflexivity. Qed.
Example dilation_steps_example : option_map (fun f => map f (pixels 5 1))
    (geodesic_dilation 5 1 0 (line5 [0; 200; 0; 0; 0]) (line5 [50; 250; 100; 90; 90]) [(-1, 0); (0, 0); (1, 0)] 1) =
  Some [50; 200; 100; 0; 0].
Proof. vm_compute. reflexivity. Qed.
Example erosion_example : option_map (fun f => map f (pixels 5 1))
    (geodesic_erosion 5 1 10 (line5 [255; 55; 255; 255; 255]) (line5 [205; 5; 155; 255; 165]) [(-1, 0); (0, 0); (1, 0)] (-1)) =
  Some [205; 55; 155; 255; 255].
Proof. vm_compute. reflexivity. Qed.
Example path_example : path 5 1 [(-1, 0); (0, 0); (1, 0)] (fun x => 100 <= line5 [50; 250; 100; 0; 90] x) 1 (1, 0) (2, 0).
Proof.
  apply path_step with (1, 0); [apply path_here; [unfold inside; cbn; lia|vm_compute; easy]|unfold inside; cbn; lia|vm_compute; easy|cbn; tauto].
Qed.
Example holes_example : bytes ring /\ option_map (fun f => map f (pixels 3 3)) (fill_hole 3 3 10 ring (fun _ => 0)) = Some (repeat 255 9).
Proof. split; [intros p; unfold ring; destruct (_ && _); lia|]. vm_compute. reflexivity. Qed.

Print Assumptions C102_dilation_ends.
Print Assumptions C102_dilation.
Print Assumptions C102_dilation_steps.
Print Assumptions C102_dilation_none.
Print Assumptions C102_duality.
Print Assumptions C102_erosion.
Print Assumptions C102_holes.
Print Assumptions C102_holes_end.
Print Assumptions C102_no_centre_refuted.
Print Assumptions C102_zero_iterations_refuted.
Print Assumptions C102_hole_memory_refuted.
Print Assumptions C102_hole_border_refuted.
