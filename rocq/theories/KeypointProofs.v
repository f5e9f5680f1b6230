(** Proofs about the keypoint container. *)
From Coq Require Import ZifyBool ZifyNat ZifyN Lqa.
From Verif Require Import KeypointModel.
Local Open Scope Z_scope.

Lemma u32_small x : 0 <= x < 2 ^ 32 -> u32 x = x.
Proof. intros. unfold u32. now apply Z.mod_small. Qed.

Lemma cell_count_pos n : 0 < n -> 0 < cell_count n.
Proof. intros. unfold cell_count, cellSize, matchSearchRadius. cbn. apply Z.div_str_pos. lia. Qed.

Lemma cell_count_bound n : 0 < n <= 1000000 -> 0 < cell_count n <= 32259.
Proof.
  intros. split; [apply cell_count_pos; lia|]. unfold cell_count, cellSize, matchSearchRadius. cbn.
  apply Z.lt_succ_r. apply Z.div_lt_upper_bound; lia.
Qed.

Lemma zclamp_range x lo hi : lo <= hi -> lo <= zclamp x lo hi <= hi.
Proof. intros. unfold zclamp. destruct (Z.ltb_spec x lo); destruct (Z.ltb_spec hi x); lia. Qed.

Lemma kh_coords_range h x y r c :
  0 < kh_cx h -> 0 < kh_cy h -> kh_coords h x y = (r, c) -> 0 <= r < kh_cy h /\ 0 <= c < kh_cx h.
Proof.
  intros Hx Hy H. unfold kh_coords in H. injection H as <- <-.
  assert (A := zclamp_range (Qfloor (y / inject_Z cellSize)) 0 (kh_cy h - 1) ltac:(lia)).
  assert (B := zclamp_range (Qfloor (x / inject_Z cellSize)) 0 (kh_cx h - 1) ltac:(lia)).
  split; (split; [apply A || apply B|]); [apply Z.le_lt_trans with (kh_cy h - 1)|apply Z.le_lt_trans with (kh_cx h - 1)];
    try apply A; try apply B; lia.
Qed.

(** index range *)
Definition fits (h : handler) : Prop :=
  0 < kh_cx h <= 32259 /\ 0 < kh_cy h <= 32259 /\ length (kh_cells h) = Z.to_nat (kh_cx h * kh_cy h).
Definition landscape (h : handler) : Prop := kh_cy h <= kh_cx h \/ kh_cy h = 1.

Lemma kh_new_fits cols rows : 0 < cols <= 1000000 -> 0 < rows <= 1000000 -> fits (kh_new cols rows).
Proof.
  intros. unfold fits, kh_new. cbn. split; [now apply cell_count_bound|]. split; [now apply cell_count_bound|].
  now rewrite repeat_length.
Qed.

Lemma kh_index_val h r c :
  fits h -> 0 <= r < kh_cy h -> 0 <= c < kh_cx h -> kh_index h c r = r * kh_cy h + c.
Proof. intros (A & B & _) Hr Hc. unfold kh_index. apply u32_small. nia. Qed.

Lemma kh_index_range h r c :
  fits h -> landscape h -> 0 <= r < kh_cy h -> 0 <= c < kh_cx h ->
  0 <= kh_index h c r < kh_cx h * kh_cy h.
Proof. intros F L Hr Hc. rewrite kh_index_val by assumption. destruct F as (A & B & _). destruct L; nia. Qed.

Lemma kh_index_lt h r c :
  fits h -> landscape h -> 0 <= r < kh_cy h -> 0 <= c < kh_cx h ->
  (Z.to_nat (kh_index h c r) < length (kh_cells h))%nat.
Proof.
  intros F L Hr Hc. pose proof (kh_index_range h r c F L Hr Hc). destruct F as (_ & _ & ->). lia.
Qed.

(** every position can be reached: pixel in the middle of a cell *)
Lemma coords_exact h r c : 0 <= r < kh_cy h -> 0 <= c < kh_cx h ->
  kh_coords h (inject_Z (c * cellSize)) (inject_Z (r * cellSize)) = (r, c).
Proof.
  intros Hr Hc. unfold kh_coords.
  assert (E : forall k, Qfloor (inject_Z (k * cellSize) / inject_Z cellSize) = k).
  { intros k. rewrite inject_Z_mult. rewrite <- (Qfloor_Z k) at 2. apply Qfloor_comp.
    field. unfold cellSize, matchSearchRadius. discriminate. }
  rewrite !E. unfold zclamp. f_equal.
  - destruct (Z.ltb_spec r 0); [lia|]. destruct (Z.ltb_spec (kh_cy h - 1) r); lia.
  - destruct (Z.ltb_spec c 0); [lia|]. destruct (Z.ltb_spec (kh_cx h - 1) c); lia.
Qed.

Lemma index_all_in_range_iff h : fits h ->
  ((forall x y r c, kh_coords h x y = (r, c) -> 0 <= kh_index h c r < kh_cx h * kh_cy h) <-> landscape h).
Proof.
  intros F. split.
  - intros H. unfold landscape. destruct (Z_le_gt_dec (kh_cy h) (kh_cx h)) as [|G]; [auto|].
    destruct (Z.eq_dec (kh_cy h) 1) as [|N1]; [auto|]. exfalso.
    pose proof F as (A & B & _).
    assert (X : 0 <= kh_index h (kh_cx h - 1) (kh_cy h - 1) < kh_cx h * kh_cy h).
    { eapply (H _ _ (kh_cy h - 1) (kh_cx h - 1)). apply coords_exact; lia. }
    rewrite kh_index_val in X by (auto; lia). nia.
  - intros L x y r c E. apply kh_coords_range in E; [|apply F|apply F]. now apply kh_index_range.
Qed.

(** ** Lists *)
Lemma list_update_some {A} (l : list A) i f : (i < length l)%nat ->
  exists l', list_update l i f = Some l' /\ length l' = length l /\
    forall j, nth_error l' j = if Nat.eqb j i then option_map f (nth_error l j) else nth_error l j.
Proof.
  revert i. induction l as [|x l IH]; intros [|i] H; cbn in H; try lia.
  - exists (f x :: l). split; auto. split; auto. intros [|j]; reflexivity.
  - destruct (IH i) as (l' & E & L & N); [lia|]. exists (x :: l'). cbn. rewrite E. cbn. split; auto. split; auto.
    intros [|j]; [reflexivity|]. cbn. apply N.
Qed.

(** ** Filling the cells *)
Definition cell_of (h : handler) (k : keypoint) : nat :=
  let '(cy, cx) := kh_coords h (kp_x k) (kp_y k) in Z.to_nat (kh_index h cx cy).

Lemma kh_place_ok h i kps cells :
  fits h -> landscape h -> length cells = length (kh_cells h) ->
  exists cells', kh_place h i kps cells = Ret cells' /\ length cells' = length cells /\
    forall c j, (exists cell, nth_error cells' c = Some cell /\ In j cell) <->
                (exists cell, nth_error cells c = Some cell /\ In j cell) \/
                (exists n k, nth_error kps n = Some k /\ j = (i + n)%nat /\ cell_of h k = c).
Proof.
  intros F L. revert i cells. induction kps as [|k kps IH]; intros i cells Lc.
  - exists cells. split; auto. split; auto. intros c j. split; auto. intros [H|(n & k & H & _)]; auto.
    now rewrite nth_error_nil in H || (destruct n; discriminate).
  - cbn [kh_place]. destruct (kh_coords h (kp_x k) (kp_y k)) as [r0 c0] eqn:E.
    pose proof (kh_coords_range _ _ _ _ _ (proj1 (proj1 F)) (proj1 (proj1 (proj2 F))) E) as [R1 R2].
    pose proof (kh_index_lt h r0 c0 F L R1 R2) as Lt. rewrite <- Lc in Lt.
    destruct (list_update_some cells (Z.to_nat (kh_index h c0 r0)) (fun c => c ++ [i]) Lt) as (cells1 & E1 & L1 & N1).
    rewrite E1. destruct (IH (S i) cells1) as (cells' & E2 & L2 & N2); [congruence|].
    exists cells'. split; auto. split; [congruence|]. intros c j. rewrite N2.
    assert (CO : cell_of h k = Z.to_nat (kh_index h c0 r0)) by (unfold cell_of; now rewrite E).
    split.
    + intros [(cell & X & Y)|(n & k' & X & Y & Z)].
      * rewrite N1 in X. destruct (Nat.eqb_spec c (Z.to_nat (kh_index h c0 r0))) as [->|].
        -- destruct (nth_error cells (Z.to_nat (kh_index h c0 r0))) as [c1|] eqn:Ec; [|discriminate].
           cbn in X. injection X as <-. apply in_app_or in Y. destruct Y as [Y|[<-|[]]]; [left; eauto|].
           right. exists 0%nat, k. split; auto.
        -- left. eauto.
      * right. exists (S n), k'. split; auto. split; auto. lia.
    + intros [(cell & X & Y)|(n & k' & X & Y & Z)].
      * left. rewrite N1. destruct (Nat.eqb_spec c (Z.to_nat (kh_index h c0 r0))) as [->|]; [|eauto].
        rewrite X. cbn. exists (cell ++ [i]). split; auto. apply in_or_app. auto.
      * destruct n as [|n]; cbn in X.
        -- injection X as <-. left. rewrite N1, CO in *. subst c. rewrite Nat.eqb_refl.
           destruct (nth_error cells (Z.to_nat (kh_index h c0 r0))) as [c1|] eqn:Ec.
           ++ cbn. exists (c1 ++ [i]). split; auto. apply in_or_app. right. cbn. lia.
           ++ apply nth_error_None in Ec. lia.
        -- right. exists n, k'. split; auto. split; auto. lia.
Qed.

(** what [set] builds *)
Record built (h : handler) (detected : list keypoint) (tracked : list (N * keypoint)) : Prop := mkBuilt {
  b_fits : fits h;
  b_land : landscape h;
  b_kps : kh_keypoints h = detected ++ map snd tracked;
  b_ids : kh_ids h = kh_track (length detected) 0 tracked [];
  b_rows : kh_rows h = length detected;
  b_cells : forall c j, (exists cell, nth_error (kh_cells h) c = Some cell /\ In j cell) <->
                        (exists k, nth_error detected j = Some k /\ cell_of h k = c)
}.

Lemma kh_set_built h0 detected tracked :
  fits h0 -> landscape h0 ->
  exists h, kh_set detected (length detected) tracked h0 = Ret h /\ built h detected tracked /\
            kh_cx h = kh_cx h0 /\ kh_cy h = kh_cy h0.
Proof.
  intros F L. unfold kh_set.
  destruct (kh_place_ok h0 0 detected (map (fun _ => []) (kh_cells h0)) F L (map_length _ _)) as (cells & E & Lc & N).
  rewrite E. cbn [bind]. eexists. split; [reflexivity|]. split; [|split; reflexivity].
  rewrite map_length in Lc. destruct F as (A & B & C).
  constructor; cbn [kh_keypoints kh_ids kh_rows kh_cells]; auto.
  - split; [exact A|]. split; [exact B|]. cbn [kh_cells kh_cx kh_cy]. congruence.
  - intros c j. rewrite N. split.
    + intros [(cell & X & Y)|(n & k & X & Y & Z)].
      * exfalso. rewrite nth_error_map in X. destruct (nth_error (kh_cells h0) c); [|discriminate].
        cbn in X. injection X as <-. destruct Y.
      * exists k. rewrite Nat.add_0_l in Y. subst n. split; auto.
    + intros (k & X & Z). right. exists j, k. split; auto.
Qed.

(** ** Tracking identifiers *)
Lemma kh_track_spec offset i tracked ids id k :
  In (id, k) (kh_track offset i tracked ids) ->
  In (id, k) ids \/ exists j kp, nth_error tracked j = Some (id, kp) /\ k = (j + i + offset)%nat /\ id <> 0%N.
Proof.
  revert i ids. induction tracked as [|[id1 kp1] tr IH]; cbn; intros i ids H; auto.
  apply IH in H. destruct H as [H|(j & kp & X & Y & Z)].
  - destruct (N.ltb_spec 0 id1) as [P|P]; auto. cbn in H. destruct H as [H|H].
    + injection H as <- <-. right. exists 0%nat, kp1. cbn. repeat split; auto. lia.
    + apply filter_In in H. tauto.
  - right. exists (S j), kp. cbn. repeat split; auto. lia.
Qed.

Lemma kh_track_nodup offset i tracked ids :
  NoDup (map fst ids) -> NoDup (map fst (kh_track offset i tracked ids)).
Proof.
  revert i ids. induction tracked as [|[id1 kp1] tr IH]; cbn; intros i ids ND; auto.
  apply IH. destruct (N.ltb 0 id1); auto. cbn. constructor.
  - intros H. apply in_map_iff in H. destruct H as (e & E & H). apply filter_In in H. destruct H as [_ H].
    rewrite E, N.eqb_refl in H. discriminate.
  - clear IH. induction ids as [|[a b] ids IH]; cbn; [constructor|]. inversion ND; subst.
    destruct (negb (N.eqb a id1)); cbn; auto. constructor; auto. intros H. apply H1.
    apply in_map_iff in H. destruct H as (e & E & H). apply filter_In in H. apply in_map_iff. exists e. tauto.
Qed.

Lemma kh_track_complete offset i tracked ids id k :
  (In (id, k) ids /\ ~ In id (map fst tracked)) \/
  (NoDup (map fst tracked) /\ exists j kp, nth_error tracked j = Some (id, kp) /\ k = (j + i + offset)%nat /\ id <> 0%N) ->
  In (id, k) (kh_track offset i tracked ids).
Proof.
  revert i ids. induction tracked as [|[id1 kp1] tr IH]; cbn; intros i ids H.
  - destruct H as [[H _]|(_ & j & kp & X & _)]; auto. destruct j; discriminate.
  - destruct H as [[H1 H2]|(ND & j & kp & X & Y & Z)].
    + apply IH. left. split; [|tauto]. destruct (N.ltb 0 id1); auto. right. apply filter_In. split; auto.
      cbn. apply negb_true_iff, N.eqb_neq. intros ->. tauto.
    + inversion ND; subst. destruct j as [|j]; cbn in X.
      * injection X as -> ->. apply IH. left. split; auto. destruct (N.ltb_spec 0 id); [|lia]. now left.
      * apply IH. right. split; auto. exists j, kp. repeat split; auto. lia.
Qed.

Lemma find_nodup (l : list (N * nat)) id k :
  NoDup (map fst l) -> In (id, k) l -> find (fun e => N.eqb (fst e) id) l = Some (id, k).
Proof.
  induction l as [|[a b] l IH]; cbn; intros ND H; [tauto|]. inversion ND; subst.
  destruct H as [H|H].
  - injection H as -> ->. now rewrite N.eqb_refl.
  - destruct (N.eqb_spec a id) as [->|]; auto. exfalso. apply H2. apply in_map_iff. exists (id, k). auto.
Qed.

Lemma tracking_sound h detected tracked id i :
  built h detected tracked -> kh_tracking h id = Some i ->
  id <> 0%N /\ exists j kp, nth_error tracked j = Some (id, kp) /\ i = (length detected + j)%nat /\
                        nth_error (kh_keypoints h) i = Some kp.
Proof.
  intros B H. unfold kh_tracking in H. destruct (kh_keypoints h) eqn:K; [discriminate|]. rewrite <- K.
  destruct (N.eqb_spec id 0) as [|N0]; [discriminate|]. split; auto.
  destruct (find (fun e => N.eqb (fst e) id) (kh_ids h)) as [[a b]|] eqn:Fd; [|discriminate]. injection H as <-.
  apply find_some in Fd. destruct Fd as [Fi Fe]. apply N.eqb_eq in Fe. cbn in Fe. subst a. cbn [snd].
  rewrite (b_ids _ _ _ B) in Fi. apply kh_track_spec in Fi. destruct Fi as [[]|(j & kp & X & Y & Z)].
  exists j, kp. split; auto. split; [lia|]. rewrite (b_kps _ _ _ B).
  rewrite nth_error_app2 by lia. replace (b - length detected)%nat with j by lia.
  rewrite nth_error_map, X. reflexivity.
Qed.

Lemma tracking_complete h detected tracked id j kp :
  built h detected tracked -> NoDup (map fst tracked) -> id <> 0%N ->
  nth_error tracked j = Some (id, kp) -> kh_tracking h id = Some (length detected + j)%nat.
Proof.
  intros B ND N0 H. unfold kh_tracking. destruct (kh_keypoints h) eqn:K.
  - rewrite (b_kps _ _ _ B) in K. apply app_eq_nil in K. destruct K as [_ K]. destruct tracked; [destruct j|]; discriminate.
  - destruct (N.eqb_spec id 0); [tauto|]. rewrite (b_ids _ _ _ B).
    rewrite (find_nodup _ id (length detected + j)%nat); auto.
    + apply kh_track_nodup. constructor.
    + apply kh_track_complete. right. split; auto. exists j, kp. repeat split; auto. lia.
Qed.

Lemma tracking_inj h detected tracked a b i :
  built h detected tracked -> kh_tracking h a = Some i -> kh_tracking h b = Some i -> a = b.
Proof.
  intros B H1 H2. destruct (tracking_sound _ _ _ _ _ B H1) as (_ & j & kp & X & Y & _).
  destruct (tracking_sound _ _ _ _ _ B H2) as (_ & j' & kp' & X' & Y' & _).
  assert (j' = j) by lia. subst j'. congruence.
Qed.

(** ** The mask *)
Lemma kh_fill_ok h x y cell flags mask detected tracked :
  built h detected tracked -> length flags = length (kh_keypoints h) ->
  (forall i, In i cell -> (i < length detected)%nat) -> length mask = length detected ->
  exists mask', kh_fill h x y cell flags mask = Ret mask' /\ length mask' = length mask /\
    forall i, nth_error mask' i = Some true <->
      nth_error mask i = Some true \/
      (In i cell /\ nth_error flags i = Some false /\
       exists k, nth_error detected i = Some k /\ (sq_dist k x y <= inject_Z (matchSearchRadius * matchSearchRadius))%Q).
Proof.
  intros B Lf. revert mask. induction cell as [|i cell IH]; intros mask Hc Lm; cbn [kh_fill].
  - exists mask. split; auto. split; auto. intros j. split; auto. intros [H|[[] _]]; auto.
  - assert (Hi : (i < length detected)%nat) by (apply Hc; now left).
    assert (Hc' : forall j, In j cell -> (j < length detected)%nat) by (intros; apply Hc; now right).
    assert (Lk : (length (kh_keypoints h) >= length detected)%nat) by (rewrite (b_kps _ _ _ B), app_length; lia).
    destruct (nth_error flags i) as [b|] eqn:Fi; [|apply nth_error_None in Fi; lia].
    destruct (nth_error detected i) as [k|] eqn:Ki; [|apply nth_error_None in Ki; lia].
    assert (Ki' : nth_error (kh_keypoints h) i = Some k).
    { rewrite (b_kps _ _ _ B), nth_error_app1 by lia. exact Ki. }
    destruct b.
    + destruct (IH mask Hc' Lm) as (m' & E & L & N). exists m'. split; auto. split; auto. intros j. rewrite N.
      split; intros [H|(H1 & H2 & H3)]; auto.
      * right. split; [now right|]. auto.
      * destruct H1 as [<-|H1]; [congruence|]. right. auto.
    + rewrite Ki'. destruct (Qle_bool (sq_dist k x y) (inject_Z (matchSearchRadius * matchSearchRadius))) eqn:Q.
      * destruct (list_update_some mask i (fun _ => true)) as (m1 & E1 & L1 & N1); [lia|]. rewrite E1.
        destruct (IH m1 Hc') as (m' & E & L & N); [lia|]. exists m'. split; auto. split; [lia|]. intros j. rewrite N, N1.
        apply Qle_bool_iff in Q. split.
        -- intros [H|(H1 & H2 & H3)].
           ++ destruct (Nat.eqb_spec j i) as [Eji|]; [|auto]. rewrite Eji. right. split; [now left|]. split; auto. exists k. auto.
           ++ right. split; [now right|]. auto.
        -- intros [H|(H1 & H2 & H3)].
           ++ left. destruct (Nat.eqb_spec j i) as [Eji|]; auto. now rewrite H.
           ++ destruct H1 as [<-|H1]; [|auto]. left. rewrite Nat.eqb_refl.
              destruct (nth_error mask i) eqn:Mi; [reflexivity|]. apply nth_error_None in Mi. lia.
      * destruct (IH mask Hc' Lm) as (m' & E & L & N). exists m'. split; auto. split; auto. intros j. rewrite N.
        split; intros [H|(H1 & H2 & H3)]; auto.
        -- right. split; [now right|]. auto.
        -- destruct H1 as [<-|H1]; [|auto]. exfalso. destruct H3 as (k' & X & Y). rewrite Ki in X. injection X as <-.
           apply Qle_bool_iff in Y. congruence.
Qed.

Lemma kh_scan_ok h x y cells flags mask detected tracked :
  built h detected tracked -> length flags = length (kh_keypoints h) ->
  (forall j i, In (j, i) cells -> 0 <= i < kh_cy h /\ 0 <= j < kh_cx h) -> length mask = length detected ->
  exists mask', kh_scan h x y cells flags mask = Ret mask' /\ length mask' = length mask /\
    forall n, nth_error mask' n = Some true <->
      nth_error mask n = Some true \/
      (nth_error flags n = Some false /\
       exists k, nth_error detected n = Some k /\ (sq_dist k x y <= inject_Z (matchSearchRadius * matchSearchRadius))%Q /\
       exists j i, In (j, i) cells /\ cell_of h k = Z.to_nat (kh_index h j i)).
Proof.
  intros B Lf. revert mask. induction cells as [|[j i] cells IH]; intros mask Hc Lm; cbn [kh_scan].
  - exists mask. split; auto. split; auto. intros n. split; auto.
    intros [H|(_ & k & _ & _ & a & b & [] & _)]; auto.
  - destruct (Hc j i (or_introl eq_refl)) as [Hi Hj].
    pose proof (kh_index_lt h i j (b_fits _ _ _ B) (b_land _ _ _ B) Hi Hj) as Lt.
    destruct (nth_error (kh_cells h) (Z.to_nat (kh_index h j i))) as [cell|] eqn:Ce; [|apply nth_error_None in Ce; lia].
    assert (InCell : forall n, In n cell <-> exists k, nth_error detected n = Some k /\ cell_of h k = Z.to_nat (kh_index h j i)).
    { intros n. rewrite <- (b_cells _ _ _ B). split.
      - intros X. exists cell. auto.
      - intros (c' & X & Y). rewrite Ce in X. now injection X as <-. }
    destruct (kh_fill_ok h x y cell flags mask detected tracked B Lf) as (m1 & E1 & L1 & N1); auto.
    { intros n Hn. apply InCell in Hn. destruct Hn as (k & Hn & _). apply nth_error_Some. congruence. }
    rewrite E1. cbn [bind]. destruct (IH m1) as (m' & E & L & N); [intros; apply Hc; now right|lia|].
    exists m'. split; auto. split; [lia|]. intros n. rewrite N, N1. split.
    + intros [[H|(H1 & H2 & k & H3 & H4)]|(H1 & k & H2 & H3 & a & b & H4 & H5)]; auto.
      * right. split; auto. exists k. split; auto. split; auto. exists j, i. split; [now left|].
        apply InCell in H1. destruct H1 as (k' & X & Y). rewrite H3 in X. injection X as <-. exact Y.
      * right. split; auto. exists k. split; auto. split; auto. exists a, b. split; [now right|auto].
    + intros [H|(H1 & k & H2 & H3 & a & b & H4 & H5)]; auto. destruct H4 as [H4|H4].
      * injection H4 as <- <-. left. right. split; [apply InCell; eauto|]. split; auto. eauto.
      * right. split; auto. exists k. split; auto. split; auto. exists a, b. auto.
Qed.

Lemma urange_in a b i : In i (urange a b) <-> a <= i < b.
Proof.
  unfold urange. rewrite in_map_iff. split.
  - intros (n & <- & H). apply in_seq in H. lia.
  - intros H. exists (Z.to_nat (i - a)). split; [lia|]. apply in_seq. lia.
Qed.

(** close points lie in neighbour cells *)
Lemma floor_close (a b : Q) :
  (- inject_Z matchSearchRadius <= a - b <= inject_Z matchSearchRadius)%Q ->
  Qfloor (a / inject_Z cellSize) - 1 <= Qfloor (b / inject_Z cellSize) <= Qfloor (a / inject_Z cellSize) + 1.
Proof.
  intros H.
  assert (Half : forall u v : Q, (u - v <= inject_Z matchSearchRadius)%Q ->
     Qfloor (u / inject_Z cellSize) - 1 <= Qfloor (v / inject_Z cellSize)).
  { intros u v Huv.
    assert (Qle (u / inject_Z cellSize - 1) (v / inject_Z cellSize)).
    { unfold cellSize, matchSearchRadius in *. change (inject_Z (30 + 1)) with (31 # 1).
      change (inject_Z 30) with (30 # 1) in Huv.
      assert (E1 : (u / (31 # 1) == u * (1 # 31))%Q) by (field). assert (E2 : (v / (31 # 1) == v * (1 # 31))%Q) by (field).
      rewrite E1, E2. lra. }
    pose proof (Qfloor_le (u / inject_Z cellSize)) as A.
    assert (X : (inject_Z (Qfloor (u / inject_Z cellSize) - 1) <= v / inject_Z cellSize)%Q).
    { unfold Z.sub. rewrite inject_Z_plus. change (inject_Z (- (1))) with (-1)%Q. lra. }
    apply Qfloor_resp_le in X. now rewrite Qfloor_Z in X. }
  split.
  - apply Half. lra.
  - specialize (Half b a). assert (Qfloor (b / inject_Z cellSize) - 1 <= Qfloor (a / inject_Z cellSize)); [|lia].
    apply Half. lra.
Qed.

Lemma zclamp_close a b lo hi d : lo <= hi -> 0 <= d -> a - d <= b <= a + d ->
  zclamp a lo hi - d <= zclamp b lo hi <= zclamp a lo hi + d.
Proof.
  intros. unfold zclamp. destruct (Z.ltb_spec a lo); destruct (Z.ltb_spec hi a);
    destruct (Z.ltb_spec b lo); destruct (Z.ltb_spec hi b); lia.
Qed.

Lemma sq_dist_close k x y :
  (sq_dist k x y <= inject_Z (matchSearchRadius * matchSearchRadius))%Q ->
  (- inject_Z matchSearchRadius <= x - kp_x k <= inject_Z matchSearchRadius)%Q /\
  (- inject_Z matchSearchRadius <= y - kp_y k <= inject_Z matchSearchRadius)%Q.
Proof.
  unfold sq_dist, matchSearchRadius. change (inject_Z (30 * 30)) with (900 # 1). change (inject_Z 30) with (30 # 1).
  intros H.
  assert (L : forall a b : Q, (a * a + b * b <= 900 # 1 -> - (30 # 1) <= a <= 30 # 1)%Q).
  { intros a b Hab. assert (0 <= b * b)%Q by nra. split; nra. }
  pose proof (L _ _ H) as Hx. rewrite Qplus_comm in H. pose proof (L _ _ H) as Hy. repeat split; lra.
Qed.

Lemma close_cells h k x y r c r' c' :
  0 < kh_cx h -> 0 < kh_cy h ->
  (sq_dist k x y <= inject_Z (matchSearchRadius * matchSearchRadius))%Q ->
  kh_coords h x y = (r, c) -> kh_coords h (kp_x k) (kp_y k) = (r', c') ->
  r - 1 <= r' <= r + 1 /\ c - 1 <= c' <= c + 1.
Proof.
  intros Hx Hy H E1 E2. apply sq_dist_close in H. destruct H as [H1 H2].
  unfold kh_coords in E1, E2. injection E1 as <- <-. injection E2 as <- <-.
  split; apply zclamp_close; try lia; now apply floor_close.
Qed.

(** The mask holds exactly the unmatched detected keypoints within the radius,
    unless the searched position lies in the first [radius] rows or columns of
    cells, where it is empty. *)
Lemma kh_mask_exact h x y flags radius detected tracked r c :
  built h detected tracked -> length flags = length (kh_keypoints h) ->
  1 <= radius <= 1000 -> kh_coords h x y = (r, c) ->
  exists mask, kh_mask h x y flags radius = Ret mask /\ length mask = length detected /\
    forall n, nth_error mask n = Some true <->
      radius <= r /\ radius <= c /\
      nth_error flags n = Some false /\
      exists k, nth_error detected n = Some k /\ (sq_dist k x y <= inject_Z (matchSearchRadius * matchSearchRadius))%Q.
Proof.
  intros B Lf Rr Ec. pose proof (b_fits _ _ _ B) as F. destruct F as (Fx & Fy & Fl).
  pose proof (kh_coords_range _ _ _ _ _ (proj1 Fx) (proj1 Fy) Ec) as [R1 R2].
  unfold kh_mask. rewrite Ec.
  assert (EY : u32 (r + radius + 1) = r + radius + 1) by (apply u32_small; lia).
  assert (EX : u32 (c + radius + 1) = c + radius + 1) by (apply u32_small; lia).
  rewrite EX, EY.
  assert (SY : Z.max 0 (u32 (r - radius)) = if radius <=? r then r - radius else r - radius + 2 ^ 32).
  { unfold u32. destruct (Z.leb_spec radius r).
    - rewrite Z.mod_small by lia. lia.
    - rewrite <- (Z_mod_plus_full (r - radius) 1 (2 ^ 32)). rewrite Z.mod_small by lia. lia. }
  assert (SX : Z.max 0 (u32 (c - radius)) = if radius <=? c then c - radius else c - radius + 2 ^ 32).
  { unfold u32. destruct (Z.leb_spec radius c).
    - rewrite Z.mod_small by lia. lia.
    - rewrite <- (Z_mod_plus_full (c - radius) 1 (2 ^ 32)). rewrite Z.mod_small by lia. lia. }
  rewrite SX, SY.
  set (cells := flat_map _ _).
  assert (Hcells : forall j i, In (j, i) cells <->
     radius <= r /\ radius <= c /\ r - radius <= i < Z.min (kh_cy h) (r + radius + 1) /\
     c - radius <= j < Z.min (kh_cx h) (c + radius + 1)).
  { intros j i. unfold cells. rewrite in_flat_map. split.
    - intros (i' & H1 & H2). apply in_map_iff in H2. destruct H2 as (j' & E & H2). injection E as -> ->.
      apply urange_in in H1, H2.
      destruct (Z.leb_spec radius r); destruct (Z.leb_spec radius c); lia.
    - intros (H1 & H2 & H3 & H4). exists i. split.
      + apply urange_in. destruct (Z.leb_spec radius r); lia.
      + apply in_map_iff. exists j. split; auto. apply urange_in. destruct (Z.leb_spec radius c); lia. }
  destruct (kh_scan_ok h x y cells flags (repeat false (kh_rows h)) detected tracked B Lf) as (m & E & L & N).
  { intros j i Hji. apply Hcells in Hji. lia. }
  { rewrite repeat_length. apply (b_rows _ _ _ B). }
  exists m. split; auto. split; [rewrite L, repeat_length; apply (b_rows _ _ _ B)|]. intros n. rewrite N. split.
  - intros [H|(H1 & k & H2 & H3 & j & i & H4 & _)].
    + exfalso. assert (X : In true (repeat false (kh_rows h))) by (eapply nth_error_In; eauto).
      apply repeat_spec in X. discriminate.
    + apply Hcells in H4. split; [tauto|]. split; [tauto|]. split; auto. exists k. auto.
  - intros (H1 & H2 & H3 & k & H4 & H5). right. split; auto. exists k. split; auto. split; auto.
    destruct (kh_coords h (kp_x k) (kp_y k)) as [r' c'] eqn:Ek.
    pose proof (kh_coords_range _ _ _ _ _ (proj1 Fx) (proj1 Fy) Ek) as [R1' R2'].
    pose proof (close_cells h k x y r c r' c' (proj1 Fx) (proj1 Fy) H5 Ec Ek) as [C1 C2].
    exists c', r'. split; [|unfold cell_of; now rewrite Ek]. apply Hcells. lia.
Qed.

(** ** Matching *)
Lemma knn_insert_in i d best j e : In (j, e) (knn_insert i d best) -> (j, e) = (i, d) \/ In (j, e) best.
Proof.
  induction best as [|[a b] best IH]; cbn; [intros [H|[]]; auto|].
  destruct (N.ltb d b); cbn; intros [H|H]; auto. apply IH in H. tauto.
Qed.
Lemma firstn_in {A} n (l : list A) x : In x (firstn n l) -> In x l.
Proof. revert n. induction l as [|y l IH]; intros [|n] H; cbn in *; try tauto. destruct H; auto. right. eauto. Qed.

Lemma knn_scan_in dist i mask best j e :
  In (j, e) (knn_scan dist i mask best) ->
  In (j, e) best \/ exists n, j = (i + n)%nat /\ nth_error mask n = Some true.
Proof.
  revert i best. induction mask as [|b mask IH]; cbn [knn_scan]; intros i best H; auto.
  apply IH in H. destruct H as [H|(n & -> & H)].
  - destruct b; auto. apply firstn_in, knn_insert_in in H. destruct H as [H|H]; auto.
    injection H as -> ->. right. exists 0%nat. split; auto.
  - right. exists (S n). split; [lia|]. exact H.
Qed.

Lemma cell_radius_range adv : 1 <= cell_radius adv <= 1000.
Proof. destruct adv; cbn; lia. Qed.

Lemma kh_match_ok h dist x y flags adv detected tracked :
  built h detected tracked -> length flags = length (kh_keypoints h) ->
  exists idx, kh_match h dist x y flags adv = Ret idx /\ (length idx <= 1)%nat /\
    forall n, In n idx -> nth_error flags n = Some false /\
       exists k, nth_error detected n = Some k /\ (sq_dist k x y <= inject_Z (matchSearchRadius * matchSearchRadius))%Q.
Proof.
  intros B Lf. unfold kh_match. destruct (kh_keypoints h) eqn:K; [exists []; cbn; repeat split; auto; tauto|]. rewrite <- K in *.
  destruct (Nat.eqb (kh_rows h) 0); [exists []; cbn; repeat split; auto; tauto|].
  destruct (kh_coords h x y) as [r c] eqn:Ec.
  destruct (kh_mask_exact h x y flags (cell_radius adv) detected tracked r c B Lf (cell_radius_range adv) Ec) as (m & -> & L & N).
  cbn [bind].
  assert (S : forall n e, In (n, e) (knn_scan dist 0 m []) -> nth_error flags n = Some false /\
       exists k, nth_error detected n = Some k /\ (sq_dist k x y <= inject_Z (matchSearchRadius * matchSearchRadius))%Q).
  { intros n e H. apply knn_scan_in in H. destruct H as [[]|(n' & -> & H)]. apply N in H. tauto. }
  eexists. split; [reflexivity|].
  destruct (knn_scan dist 0 m []) as [|[i d] [|[i' d'] rest]].
  - split; [cbn; lia|intros n []].
  - split; [cbn; lia|]. intros n [<-|[]]. apply (S i d). now left.
  - destruct (10 * d <? 7 * d')%N; (split; [cbn; lia|]); [|intros n []].
    intros n [<-|[]]. apply (S i d). now left.
Qed.
