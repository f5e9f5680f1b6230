(** Property C78: what is matched with a map feature. *)
From Coq Require Import ZifyBool ZifyNat ZifyN Lqa.
From Verif Require Import FeatureMapModel KeypointModel KeypointProofs KeypointProps MatchingModel MatchingSpec.
Local Open Scope Z_scope.

(** ** Planes *)
Lemma plane_best_char sim flags : forall i best g,
  (plane_best sim i flags best g = best /\
   forall n a, nth_error flags n = Some false -> sim (i + n)%nat = Some a -> (a <= g)%Q) \/
  (exists n a, plane_best sim i flags best g = Some (i + n)%nat /\ nth_error flags n = Some false /\
     sim (i + n)%nat = Some a /\ (g < a)%Q /\
     forall m b, nth_error flags m = Some false -> sim (i + m)%nat = Some b -> (b <= a)%Q /\ ((m < n)%nat -> (b < a)%Q)).
Proof.
  induction flags as [|f flags IH]; intros i best g.
  - left. split; [reflexivity|]. intros n a H. destruct n; discriminate.
  - assert (Skip : plane_best sim i (f :: flags) best g = plane_best sim (S i) flags best g ->
       (f = false -> forall a, sim i = Some a -> (a <= g)%Q) -> 
       (plane_best sim i (f :: flags) best g = best /\
        forall n a, nth_error (f :: flags) n = Some false -> sim (i + n)%nat = Some a -> (a <= g)%Q) \/
       (exists n a, plane_best sim i (f :: flags) best g = Some (i + n)%nat /\ nth_error (f :: flags) n = Some false /\
          sim (i + n)%nat = Some a /\ (g < a)%Q /\
          forall m b, nth_error (f :: flags) m = Some false -> sim (i + m)%nat = Some b -> (b <= a)%Q /\ ((m < n)%nat -> (b < a)%Q))).
    { intros E H0. rewrite E. destruct (IH (S i) best g) as [[A B]|(n & a & A & B & C & D & F)].
      - left. split; [exact A|]. intros [|n] a X Y; [injection X as X; rewrite Nat.add_0_r in Y; exact (H0 X a Y)|].
        apply (B n a X). rewrite <- Y. f_equal. lia.
      - right. exists (S n), a. split; [rewrite A; f_equal; lia|]. split; [exact B|].
        split; [rewrite <- C; f_equal; lia|]. split; [exact D|].
        intros [|m] b X Y.
        + injection X as X. rewrite Nat.add_0_r in Y. specialize (H0 X b Y). split; [lra|intros _; lra].
        + destruct (F m b X) as [F1 F2]; [rewrite <- Y; f_equal; lia|]. split; [exact F1|]. intros L. apply F2. lia. }
    cbn [plane_best] in *. destruct f; [apply Skip; [reflexivity|discriminate]|].
    destruct (sim i) as [a|] eqn:Si; [|apply Skip; [reflexivity|intros _ a X; discriminate]].
    destruct (Qle_bool a g) eqn:Q; cbn [negb] in *.
    + apply Skip; [reflexivity|]. intros _ a' X. injection X as <-. now apply Qle_bool_iff.
    + clear Skip. assert (G : (g < a)%Q). { apply Qnot_le_lt. intros L. apply Qle_bool_iff in L. congruence. }
      right. destruct (IH (S i) (Some i) a) as [[A B]|(n & a' & A & B & C & D & F)].
      * exists 0%nat, a. rewrite Nat.add_0_r. split; [exact A|]. split; [reflexivity|]. split; [exact Si|]. split; [exact G|].
        intros [|m] b X Y.
        -- rewrite Nat.add_0_r, Si in Y. injection Y as <-. split; [lra|lia].
        -- split; [|lia]. apply (B m b X). rewrite <- Y. f_equal. lia.
      * exists (S n), a'. split; [rewrite A; f_equal; lia|]. split; [exact B|].
        split; [rewrite <- C; f_equal; lia|]. split; [lra|].
        intros [|m] b X Y.
        -- rewrite Nat.add_0_r, Si in Y. injection Y as <-. split; [lra|intros _; lra].
        -- destruct (F m b X) as [F1 F2]; [rewrite <- Y; f_equal; lia|]. split; [exact F1|]. intros L. apply F2. lia.
Qed.

Lemma qabs_lt x y : (qabs x < y)%Q <-> (- y < x)%Q /\ (x < y)%Q.
Proof.
  unfold qabs. destruct (Qle_bool 0 x) eqn:E.
  - apply Qle_bool_iff in E. split; [intros; split; lra|tauto].
  - assert (~ (0 <= x)%Q) by (intros L; apply Qle_bool_iff in L; congruence). split; [intros; split; lra|intros; lra].
Qed.
Lemma qabs_gt x y : (0 <= y)%Q -> (y < qabs x)%Q <-> (y < x)%Q \/ (x < - y)%Q.
Proof.
  intros Y. unfold qabs. destruct (Qle_bool 0 x) eqn:E.
  - apply Qle_bool_iff in E. split; [auto|intros [|]; lra].
  - assert (~ (0 <= x)%Q) by (intros L; apply Qle_bool_iff in L; congruence). split; [intros; right; lra|intros [|]; lra].
Qed.
Lemma qle_false a b : negb (Qle_bool a b) = true <-> (b < a)%Q.
Proof.
  rewrite negb_true_iff. split.
  - intros E. apply Qnot_le_lt. intros L. apply Qle_bool_iff in L. congruence.
  - intros L. destruct (Qle_bool a b) eqn:E; [|reflexivity]. apply Qle_bool_iff in E. lra.
Qed.

Lemma similarity_iff cosine overlap advanced projected inter detected flags i a :
  (0 <= cosine)%Q -> (forall p, In p detected -> (0 < pv_area p)%Q) ->
  plane_similarity cosine overlap advanced projected inter detected i = Some a /\ nth_error flags i = Some false <->
  a = inter i /\ can_match cosine (if advanced then overlap / 2 else overlap) projected inter detected flags i.
Proof.
  intros HC HA. unfold plane_similarity, can_match, is_distance_similar, is_normal_similar, maximum_distance.
  destruct (nth_error detected i) as [p|] eqn:E; [|split; [intros [X _]; discriminate|intros (_ & p & X & _); discriminate]].
  assert (A : (0 < pv_area p)%Q) by (apply HA; now apply nth_error_In in E).
  set (least := if advanced then (overlap / 2)%Q else overlap).
  assert (Qc : (qabs cosine == cosine)%Q).
  { unfold qabs. destruct (Qle_bool 0 cosine) eqn:X; [reflexivity|]. apply Qle_bool_iff in HC. congruence. }
  assert (OV : Qle_bool least (inter i / pv_area p) = true <-> (least * pv_area p <= inter i)%Q).
  { rewrite Qle_bool_iff. split; intros X.
    - assert (Y := Qmult_le_compat_r _ _ (pv_area p) X (Qlt_le_weak _ _ A)).
      assert (Z : (inter i / pv_area p * pv_area p == inter i)%Q) by (field; lra). lra.
    - now apply Qle_shift_div_l. }
  assert (DI : negb (Qle_bool 100 (qabs (pv_d p - pv_d projected))) = true <->
    (- (100) < pv_d p - pv_d projected)%Q /\ (pv_d p - pv_d projected < 100)%Q) by (rewrite qle_false; apply qabs_lt).
  assert (CO : pv_dot p projected = cosine_between p projected)
    by (unfold pv_dot, cosine_between; destruct (pv_normal p) as [[]], (pv_normal projected) as [[]]; reflexivity).
  assert (AN : negb (Qle_bool (qabs (pv_dot p projected)) (qabs cosine)) = true <->
    (cosine < cosine_between p projected)%Q \/ (cosine_between p projected < - cosine)%Q).
  { rewrite <- CO. rewrite qle_false. rewrite Qc. now apply qabs_gt. }
  split.
  - intros [X F]. destruct (negb _ && _ && _) eqn:B; [|discriminate]. injection X as <-.
    apply andb_true_iff in B. destruct B as [B B3]. apply andb_true_iff in B. destruct B as [B1 B2].
    split; [reflexivity|]. exists p. apply DI in B1. apply AN in B2. apply OV in B3. tauto.
  - intros (-> & p' & X & F & D1 & D2 & N & O). injection X as <-. split; [|exact F].
    apply OV in O. apply AN in N. rewrite O, N. rewrite (proj2 DI (conj D1 D2)). reflexivity.
Qed.

(** For every map plane, every detected planes (of positive area) and every common areas: a
    match is a detection whose index is not 0 and which is the first of the unmatched, close
    and sufficiently overlapping detections with the greatest common area. There is at most
    one, it is given to the optimisation when asked, and the overlap needed is halved in an
    advanced search. *)
Theorem C78_plane_match :
  forall (D Mt : Type) (mk : feat D -> nat -> Mt) cosine overlap advanced projected inter detected add f flags,
  (0 <= cosine)%Q -> (forall p, In p detected -> (0 < pv_area p)%Q) ->
  let found := plane_find mk (plane_similarity cosine overlap advanced projected inter detected) true add f flags in
  let least := (if advanced then overlap / 2 else overlap)%Q in
  (forall i, In i (fst found) <->
     i <> 0%nat /\ best_match (can_match cosine least projected inter detected flags) inter i) /\
  (length (fst found) <= 1)%nat /\ snd found = (if add then map (mk f) (fst found) else []).
Proof.
  intros D Mt mk cosine overlap advanced projected inter detected add f flags HC HA found least.
  pose proof (fun i a => similarity_iff cosine overlap advanced projected inter detected flags i a HC HA) as S.
  fold least in S. unfold found, plane_find. cbn [negb].
  set (sim := plane_similarity _ _ _ _ _ _) in *. 
  destruct (plane_best_char sim flags 0 None 0%Q) as [[-> B]|(n & a & -> & B & C & G & F)].
  - cbn. split; [|split; [lia|destruct add; reflexivity]]. intros i. split; [tauto|]. intros (_ & M & Pos & _).
    destruct (proj2 (S i (inter i)) (conj eq_refl M)) as [X Y]. specialize (B i (inter i) Y X). lra.
  - cbn [Nat.add] in *. destruct (proj1 (S n a) (conj C B)) as [-> M].
    assert (BM : best_match (can_match cosine least projected inter detected flags) inter n).
    { split; [exact M|]. split; [exact G|]. intros j Mj Nj.
      destruct (proj2 (S j (inter j)) (conj eq_refl Mj)) as [X Y]. destruct (F j (inter j) Y X) as [F1 F2].
      destruct (Nat.lt_ge_cases j n) as [L|L]; [left; exact (F2 L)|].
      destruct (Qlt_le_dec (inter j) (inter n)); [now left|right]. split; [lra|lia]. }
    assert (U : forall i, best_match (can_match cosine least projected inter detected flags) inter i -> i = n).
    { intros i (Mi & Pi & Hi). destruct (Nat.eq_dec i n) as [|Ne]; [assumption|exfalso].
      specialize (Hi n M ltac:(auto)). destruct BM as (_ & _ & Hn). specialize (Hn i Mi Ne).
      destruct Hi as [Hi|[Hi Li]], Hn as [Hn|[Hn Ln]]; try lra. lia. }
    destruct n as [|n].
    + cbn. split; [|split; [lia|destruct add; reflexivity]]. intros i. split; [tauto|]. intros [N0 X]. apply U in X. auto.
    + cbn. split; [|split; [lia|destruct add; reflexivity]]. intros i. split.
      * intros [<-|[]]. split; [lia|exact BM].
      * intros [_ X]. apply U in X. auto.
Qed.
Print Assumptions C78_plane_match.

(** The first detection is never matched, though it is the best: here the only one, the same
    plane as the projected one and completely common. *)
Theorem C78_first_plane_refuted :
  exists cosine overlap projected inter detected,
    best_match (can_match cosine overlap projected inter detected [false]) inter 0 /\
    plane_find (Mt:=nat) (fun (_ : feat nat) i => i) (plane_similarity cosine overlap false projected inter detected)
      true true (mkFeat 5 0 0 [] 0%nat) [false] = ([], []).
Proof.
  exists (47 # 50)%Q, (4 # 10)%Q, (mkPlaneView (0, 0, -1) 1000 50)%Q, (fun _ => 50%Q), [(mkPlaneView (0, 0, -1) 1000 50)%Q].
  split; [|reflexivity]. split; [|split].
  - eexists. cbn. split; [reflexivity|]. split; [reflexivity|]. repeat split; try reflexivity. left. reflexivity. discriminate.
  - reflexivity.
  - intros j (p & X & Y & _) N. destruct j; [congruence|]. destruct j; discriminate.
Qed.
Print Assumptions C78_first_plane_refuted.

(** The orientation of the normals does not matter but the sign of the distances does: the same
    plane with the opposite normal is never matched when it is 50 mm or more away from the
    camera. *)
Theorem C78_reversed_plane_refuted :
  forall cosine overlap advanced projected inter detected i n d area,
  nth_error detected i = Some (mkPlaneView n d area) ->
  pv_normal projected = (let '(x, y, z) := n in (- x, - y, - z)%Q) -> pv_d projected = (- d)%Q ->
  (50 <= d)%Q \/ (d <= - (50))%Q ->
  (forall x y z : Q, let '(nx, ny, nz) := n in let '(mx, my, mz) := pv_normal projected in
     (nx * x + ny * y + nz * z + d == 0 <-> mx * x + my * y + mz * z + pv_d projected == 0)%Q) /\
  plane_similarity cosine overlap advanced projected inter detected i = None.
Proof.
  intros cosine overlap advanced projected inter detected i [[nx ny] nz] d area E N Hd H. rewrite N, Hd. split.
  - intros x y z. split; intros; lra.
  - unfold plane_similarity, is_distance_similar, maximum_distance. rewrite E. cbn [pv_d]. rewrite Hd.
    destruct (Qle_bool 100 (qabs (d - - d))) eqn:B; [reflexivity|].
    assert (X : negb (Qle_bool 100 (qabs (d - - d))) = true) by (now rewrite B). apply qle_false, qabs_lt in X. lra.
Qed.
Print Assumptions C78_reversed_plane_refuted.

(** Four detections: the first is the best and skipped only because it is already matched; the
    third is as good as the second. *)
Example C78_plane_example :
  let flat d area := mkPlaneView (0, 0, -1)%Q d area in
  let detected := [flat 1000 60; flat 1050 50; flat 950 50; flat 1100 50]%Q in
  let inter i := nth i [60; 45; 45; 50]%Q 0%Q in
  plane_find (fun (_ : feat nat) i => i) (plane_similarity (47 # 50) (4 # 10) false (flat 1000 50)%Q inter detected)
    true true (mkFeat 5 0 0 [] 0%nat) [true; false; false; false] = ([1%nat], [1%nat]) /\
  best_match (can_match (47 # 50) (4 # 10) (flat 1000 50)%Q inter detected [true; false; false; false]) inter 1.
Proof.
  cbv zeta. split; [reflexivity|].
  apply (C78_plane_match nat nat (fun _ i => i) (47 # 50) (4 # 10) false _ _ _ false (mkFeat 5 0 0 [] 0%nat)).
  - discriminate.
  - intros p H. repeat (destruct H as [<-|H]; [reflexivity|]). destruct H.
  - now left.
Qed.

(** ** Keypoints *)
Definition knn_inv (dist : nat -> N) (P : nat -> Prop) (best : list (nat * N)) : Prop :=
  match best with
  | [] => forall i, ~ P i
  | [(i, d)] => d = dist i /\ forall j, P j <-> j = i
  | [(i, d); (j, e)] => d = dist i /\ e = dist j /\ P i /\ P j /\ i <> j /\ (d <= e)%N /\
                        forall k, P k -> k <> i -> (e <= dist k)%N
  | _ => False
  end.

Lemma knn_step dist P best i : knn_inv dist P best -> ~ P i ->
  knn_inv dist (fun j => P j \/ j = i) (firstn 2 (knn_insert i (dist i) best)).
Proof.
  intros I Ni. destruct best as [|[a da] [|[b db] [|]]]; cbn in I.
  - cbn. split; [reflexivity|]. intros j. split; [intros [X|X]; [destruct (I j X)|exact X]|auto].
  - destruct I as [-> I]. assert (a <> i) by (intros ->; apply Ni, I; reflexivity).
    cbn. destruct (N.ltb_spec (dist i) (dist a)); cbn.
    + repeat split; auto; [left; now apply I|lia|]. intros k [X|X] Nk; [apply I in X; subst; lia|congruence].
    + repeat split; auto; [left; now apply I|]. intros k [X|X] Nk; [apply I in X; congruence|subst; lia].
  - destruct I as (-> & -> & Pa & Pb & Nab & L & I).
    assert (a <> i) by (intros ->; tauto). assert (b <> i) by (intros ->; tauto).
    cbn. destruct (N.ltb_spec (dist i) (dist a)); cbn.
    + repeat split; auto; [lia|]. intros k [X|X] Nk; [|congruence].
      destruct (Nat.eq_dec k a) as [->|Na]; [lia|]. specialize (I k X Na). lia.
    + destruct (N.ltb_spec (dist i) (dist b)); cbn.
      * repeat split; auto. intros k [X|X] Nk; [|subst; lia]. specialize (I k X Nk). lia.
      * repeat split; auto. intros k [X|X] Nk; [|subst; lia]. exact (I k X Nk).
  - destruct I.
Qed.

Lemma knn_inv_ext dist P P' best : (forall i, P i <-> P' i) -> knn_inv dist P best -> knn_inv dist P' best.
Proof.
  intros E. destruct best as [|[a da] [|[b db] [|]]]; cbn; auto.
  - intros H i X. apply E in X. exact (H i X).
  - intros [-> H]. split; auto. intros j. rewrite <- E. apply H.
  - intros (-> & -> & Pa & Pb & H1 & H2 & H). rewrite <- !E. repeat split; auto. intros k X. apply E in X. auto.
Qed.

Lemma knn_scan_char dist mask : forall i best P,
  knn_inv dist P best -> (forall j, P j -> (j < i)%nat) ->
  knn_inv dist (fun j => P j \/ exists n, j = (i + n)%nat /\ nth_error mask n = Some true) (knn_scan dist i mask best).
Proof.
  induction mask as [|b mask IH]; intros i best P I L; cbn [knn_scan].
  - eapply knn_inv_ext; [|exact I]. intros j. split; auto. intros [X|(n & _ & X)]; auto. destruct n; discriminate.
  - destruct b.
    + eapply knn_inv_ext; [|apply (IH (S i) _ (fun j => P j \/ j = i))].
      * intros j. cbn. split.
        -- intros [[X|X]|(n & -> & X)]; auto; right; [exists 0%nat; split; [lia|reflexivity]|exists (S n); split; [lia|exact X]].
        -- intros [X|([|n] & -> & X)]; [auto|left; right; lia|right; exists n; split; [lia|exact X]].
      * apply knn_step; [exact I|]. intros X. apply L in X. lia.
      * intros j [X|X]; [apply L in X; lia|lia].
    + eapply knn_inv_ext; [|apply (IH (S i) _ P); [exact I|]].
      * intros j. cbn. split.
        -- intros [X|(n & -> & X)]; auto. right. exists (S n). split; [lia|exact X].
        -- intros [X|([|n] & -> & X)]; [auto|discriminate|right; exists n; split; [lia|exact X]].
      * intros j X. apply L in X. lia.
Qed.

Lemma knn_inv_match dist P best : knn_inv dist P best ->
  forall i, In i (match best with
                  | [] => []
                  | [(i, _)] => [i]
                  | (i, d) :: (_, d') :: _ => if N.ltb (10 * d) (7 * d') then [i] else []
                  end) <-> clearly_nearest P dist i.
Proof.
  intros I i. unfold clearly_nearest. destruct best as [|[a da] [|[b db] [|]]]; cbn [knn_inv] in I.
  - split; [intros []|]. intros [X _]. exact (I i X).
  - destruct I as [-> I]. split.
    + intros [<-|[]]. split; [now apply I|]. intros j X N. apply I in X. congruence.
    + intros [X _]. left. symmetry. now apply I.
  - destruct I as (-> & -> & Pa & Pb & Nab & L & I).
    destruct (N.ltb_spec (10 * dist a) (7 * dist b)) as [Q|Q].
    + split.
      * intros [<-|[]]. split; [exact Pa|]. intros j X N. specialize (I j X N). lia.
      * intros [X H]. left. destruct (Nat.eq_dec a i) as [|Ne]; auto. exfalso.
        specialize (H a Pa Ne). specialize (I i X ltac:(auto)). lia.
    + split; [intros []|]. intros [X H]. destruct (Nat.eq_dec a i) as [<-|Ne].
      * specialize (H b Pb ltac:(auto)). lia.
      * specialize (H a Pa Ne). specialize (I i X ltac:(auto)). lia.
  - destruct I.
Qed.

Definition positions (detected : list keypoint) : list (Q * Q) := map (fun k => (kp_x k, kp_y k)) detected.

(** For every keypoints of a landscape image, descriptors, matched flags and projected position
    away from the left and top borders (31 pixels, 62 in an advanced search): the detections
    found are those not matched yet, at most 30 pixels away, and whose descriptor is clearly
    nearer than the one of every other such detection (so there is at most one). *)
Theorem C78_keypoint_match :
  forall cols rows detected tracked h dist x y flags (advanced : bool),
  0 < rows <= cols -> cols <= 1000000 ->
  kh_set detected (length detected) tracked (kh_new cols rows) = Ret h ->
  length flags = (length detected + length tracked)%nat ->
  let margin := if advanced then 62 else 31 in
  (inject_Z margin <= x)%Q -> (inject_Z margin <= y)%Q -> margin < rows ->
  exists found, kh_match h dist x y flags advanced = Ret found /\ (length found <= 1)%nat /\
    forall i, In i found <-> clearly_nearest (near_keypoint (positions detected) x y flags) dist i.
Proof.
  intros cols rows detected tracked h dist x y flags advanced H1 H2 E Lf margin Hx Hy Hr.
  destruct (kh_set_built (kh_new cols rows) detected tracked) as (h' & E' & B & _).
  { apply kh_new_fits; lia. } { left. now apply C14_landscape_images. }
  rewrite E in E'. injection E' as <-.
  assert (Lk : length flags = length (kh_keypoints h))
    by (rewrite (b_kps _ _ _ B), app_length, map_length; exact Lf).
  destruct (kh_match_ok h dist x y flags advanced detected tracked B Lk) as (found & Ef & L1 & _).
  exists found. split; [exact Ef|]. split; [exact L1|]. revert Ef. unfold kh_match.
  assert (Hn : forall i, near_keypoint (positions detected) x y flags i <-> nth_error flags i = Some false /\
     exists k, nth_error detected i = Some k /\ ((kp_x k - x) * (kp_x k - x) + (kp_y k - y) * (kp_y k - y) <= 30 * 30)%Q).
  { intros i. unfold near_keypoint, positions. split.
    - intros (px & py & X & F & Dq). rewrite nth_error_map in X. destruct (nth_error detected i) as [k|]; [|discriminate].
      injection X as <- <-. split; [exact F|]. exists k. split; [reflexivity|]. lra.
    - intros (F & k & X & Dq). exists (kp_x k), (kp_y k). rewrite nth_error_map, X. split; [reflexivity|]. split; [exact F|]. lra. }
  assert (Empty : detected = [] -> forall i, ~ near_keypoint (positions detected) x y flags i).
  { intros -> i (px & py & X & _). destruct i; discriminate. }
  destruct (kh_keypoints h) as [|k0 ks] eqn:K.
  { intros Ef. injection Ef as <-. intros i. split; [intros []|]. intros [X _]. revert X. apply Empty.
    pose proof (b_kps _ _ _ B) as X. rewrite K in X. destruct detected; [reflexivity|discriminate]. }
  assert (Rh : kh_rows h = length detected).
  { unfold kh_set in E. destruct (kh_place _ _ _ _); cbn in E; try discriminate. injection E as <-. reflexivity. }
  rewrite Rh. destruct (Nat.eqb_spec (length detected) 0) as [L0|L0].
  { intros Ef. injection Ef as <-. intros i. split; [intros []|]. intros [X _]. revert X. apply Empty. now destruct detected. }
  assert (R31 : margin = 31 * cell_radius advanced) by (destruct advanced; reflexivity).
  destruct (C15_candidates_exact cols rows detected tracked h x y flags (cell_radius advanced) H1 H2 E Lf (cell_radius_range _))
    as (m & Em & Lm & N).
  rewrite Em. cbn [bind]. intros Ef. injection Ef as <-.
  pose proof (knn_scan_char dist m 0 [] (fun _ => False) ltac:(cbn; auto) ltac:(tauto)) as I.
  apply (knn_inv_ext _ _ (near_keypoint (positions detected) x y flags)) in I.
  { apply (knn_inv_match dist _ _ I). }
  intros i. cbn [Nat.add]. split.
  - intros [[]|(n & -> & X)]. apply Hn. apply N in X. tauto.
  - intros X. right. exists i. split; [reflexivity|]. apply Hn in X. destruct X as (F & k & X & Dq).
    rewrite R31 in Hx, Hy, Hr.
    destruct (C15_complete_away_from_borders cols rows detected tracked h x y flags (cell_radius advanced) i k
       H1 H2 E Lf (cell_radius_range _) Hx Hy Hr X F Dq) as (m' & Em' & Y).
    rewrite Em in Em'. injection Em' as <-. exact Y.
Qed.
Print Assumptions C78_keypoint_match.

(** A 3D point tracked by optical flow is matched with its own tracked keypoint, whatever the
    other detections and the flags, and the match is given to the optimisation when asked. *)
Theorem C78_tracked_point :
  forall (D Cam Mt : Type) (proj : Cam -> D -> option (Q * Q)) dist (mk : feat D -> nat -> Mt)
    cols rows detected tracked h cam adv add f flags j kp,
  0 < rows <= cols -> cols <= 1000000 ->
  kh_set detected (length detected) tracked (kh_new cols rows) = Ret h ->
  NoDup (map fst tracked) -> f_id f <> 0%N -> nth_error tracked j = Some (f_id f, kp) ->
  let i := (length detected + j)%nat in
  nth_error (kh_keypoints h) i = Some kp /\
  point_find proj dist mk h cam adv add f flags = Ret ([i], if add then [mk f i] else []).
Proof.
  intros D Cam Mt proj dist mk cols rows detected tracked h cam adv add f flags j kp H1 H2 E ND N0 Hj i.
  pose proof (C16_always_found _ _ _ _ _ _ _ _ H1 H2 E ND N0 Hj) as T.
  destruct (C16_found_carries_identifier _ _ _ _ _ _ _ H1 H2 E T) as (_ & j' & kp' & X & Y & Z).
  assert (j' = j) by lia. subst j'. rewrite Hj in Y. injection Y as <-. split; [exact Z|].
  unfold point_find. rewrite T. cbn [bind]. destruct add; reflexivity.
Qed.
Print Assumptions C78_tracked_point.

(** An untracked 3D point which projects on the screen is matched as [C78_keypoint_match]
    says, and one which does not is not matched. *)
Theorem C78_untracked_point :
  forall (D Cam Mt : Type) (proj : Cam -> D -> option (Q * Q)) dist (mk : feat D -> nat -> Mt)
    cols rows detected tracked h cam adv add f flags found,
  0 < rows <= cols -> cols <= 1000000 ->
  kh_set detected (length detected) tracked (kh_new cols rows) = Ret h ->
  length flags = (length detected + length tracked)%nat ->
  ~ In (f_id f) (map fst tracked) \/ f_id f = 0%N ->
  point_find proj dist mk h cam adv add f flags = Ret found ->
  snd found = (if add then map (mk f) (fst found) else []) /\
  match proj cam (f_data f) with
  | None => fst found = []
  | Some (x, y) =>
    let margin := if adv then 62 else 31 in
    (inject_Z margin <= x)%Q -> (inject_Z margin <= y)%Q -> margin < rows ->
    (length (fst found) <= 1)%nat /\
    forall i, In i (fst found) <->
      clearly_nearest (near_keypoint (positions detected) x y flags) (dist (f_data f)) i
  end.
Proof.
  intros D Cam Mt proj dist mk cols rows detected tracked h cam adv add f flags found H1 H2 E Lf NT Ef.
  unfold point_find in Ef. destruct (kh_tracking h (f_id f)) as [i|] eqn:T.
  { exfalso. destruct (C16_found_carries_identifier _ _ _ _ _ _ _ H1 H2 E T) as (N0 & j & kp & _ & X & _).
    destruct NT as [NT|NT]; [|congruence]. apply NT. apply nth_error_In in X. now apply (in_map fst) in X. }
  unfold window_find in Ef. destruct (proj cam (f_data f)) as [[x y]|].
  - destruct (kh_match h (dist (f_data f)) x y flags adv) as [idx| | ] eqn:K; cbn [bind] in Ef; try discriminate.
    injection Ef as <-. split; [reflexivity|]. intros margin Hx Hy Hr. cbn [fst].
    destruct (C78_keypoint_match cols rows detected tracked h (dist (f_data f)) x y flags adv H1 H2 E Lf Hx Hy Hr)
      as (idx' & K' & L & N). rewrite K in K'. injection K' as <-. auto.
  - cbn [bind] in Ef. injection Ef as <-. split; [reflexivity|reflexivity].
Qed.
Print Assumptions C78_untracked_point.

(** A 2D point whose tracked keypoint is not matched yet gets no match at all, and no match of
    any 2D point is ever given to the optimisation. *)
Theorem C78_point2d_refuted :
  forall (D Cam Mt : Type) (proj : Cam -> D -> option (Q * Q)) dist
    cols rows detected tracked h cam adv add (f : feat D) flags,
  0 < rows <= cols -> cols <= 1000000 ->
  kh_set detected (length detected) tracked (kh_new cols rows) = Ret h ->
  length flags = (length detected + length tracked)%nat ->
  exists found, point2d_find (Mt:=Mt) proj dist h cam adv add f flags = Ret (found, []) /\
    forall j kp, NoDup (map fst tracked) -> f_id f <> 0%N -> nth_error tracked j = Some (f_id f, kp) ->
      nth_error flags (length detected + j) = Some false -> found = [].
Proof.
  intros D Cam Mt proj dist cols rows detected tracked h cam adv add f flags H1 H2 E Lf.
  destruct (C16_found_unmatched cols rows detected tracked h (f_id f) flags H1 H2 E Lf) as (t & Et & Nt).
  destruct (kh_set_built (kh_new cols rows) detected tracked) as (h' & E' & B & _).
  { apply kh_new_fits; lia. } { left. now apply C14_landscape_images. }
  rewrite E in E'. injection E' as <-.
  assert (Lk : length flags = length (kh_keypoints h))
    by (rewrite (b_kps _ _ _ B), app_length, map_length; exact Lf).
  unfold point2d_find. rewrite Et. cbn [bind]. destruct t as [i|].
  - exists []. split; [reflexivity|]. reflexivity.
  - destruct (window_ok proj dist h detected tracked cam adv (f_data f) flags B Lk) as (idx & -> & _). cbn [bind].
    exists idx. split; [reflexivity|]. intros j kp ND N0 Hj Hf. exfalso.
    pose proof (C16_always_found _ _ _ _ _ _ _ _ H1 H2 E ND N0 Hj) as T.
    pose proof (proj2 (Nt _) (conj T Hf)). discriminate.
Qed.
Print Assumptions C78_point2d_refuted.

(** Three near detections, the second clearly the nearest; a tracked keypoint of point 7. *)
Example C78_keypoint_example :
  exists h, kh_set [mkKp 100 100 1; mkKp 110 100 1; mkKp 105 95 1; mkKp 300 300 1] 4 [(7%N, mkKp 200 200 1)] (kh_new 640 480) = Ret h /\
    (let dist (_ : Q * Q) (i : nat) := nth i [90; 30; 60; 0]%N 0%N in
     let proj (_ : unit) (d : Q * Q) := Some d in
     let flags := [false; false; false; false; false] in
     let mk (_ : feat (Q * Q)) (i : nat) := i in
     kh_match h (dist (102, 100)%Q) 102 100 flags false = Ret [1%nat] /\
     clearly_nearest (near_keypoint (positions [mkKp 100 100 1; mkKp 110 100 1; mkKp 105 95 1; mkKp 300 300 1]) 102 100 flags)
       (dist (102, 100)%Q) 1 /\
     kh_match h (fun _ => 30%N) 102 100 flags false = Ret [] /\
     point_find proj dist mk h tt false true (mkFeat 7 0 0 [] (102, 100)%Q) flags = Ret ([4%nat], [4%nat]) /\
     point2d_find (Mt:=nat) proj dist h tt false true (mkFeat 7 0 0 [] (102, 100)%Q) flags = Ret ([], []) /\
     point2d_find (Mt:=nat) proj dist h tt false true (mkFeat 8 0 0 [] (102, 100)%Q) flags = Ret ([1%nat], [])).
Proof.
  eexists. split; [vm_compute; reflexivity|]. cbv zeta. split; [vm_compute; reflexivity|]. split.
  - edestruct (C78_keypoint_match 640 480 [mkKp 100 100 1; mkKp 110 100 1; mkKp 105 95 1; mkKp 300 300 1] [(7%N, mkKp 200 200 1)])
      with (x := 102%Q) (y := 100%Q) (advanced := false) (flags := [false; false; false; false; false])
           (dist := fun i : nat => nth i [90; 30; 60; 0]%N 0%N) as (found & K & _ & N);
      [lia|lia|vm_compute; reflexivity|reflexivity|discriminate|discriminate|lia|].
    apply N. vm_compute in K. injection K as <-. now left.
  - repeat split; vm_compute; reflexivity.
Qed.
