(** Properties C80 and C81: boundary of the planes, selection of the cylinders. *)
From Coq Require Import Bool List Lia Permutation ZifyBool ZArith Reals Lra.
From Verif Require Import Vec3.
From Verif Require Import BoundaryModel BoundarySpec.
Local Open Scope bool_scope.
Local Open Scope Z_scope.

Lemma inside_iff rows cols r c : inside rows cols r c = true <-> in_grid rows cols (r, c).
Proof. unfold inside, in_grid. cbn. lia. Qed.
Lemma in_square o : In o square_kernel <-> -1 <= fst o <= 1 /\ -1 <= snd o <= 1.
Proof.
  split.
  - intros H. repeat (destruct H as [<-|H]; [cbn; lia|]). destruct H.
  - destruct o as [a b]. cbn [fst snd]. intros [A B].
    assert (Ha : a = -1 \/ a = 0 \/ a = 1) by lia. assert (Hb : b = -1 \/ b = 0 \/ b = 1) by lia.
    destruct Ha as [->|[->| ->]], Hb as [->|[->| ->]]; cbn; auto 12.
Qed.
Lemma in_cross o : In o cross_kernel <-> Z.abs (fst o) + Z.abs (snd o) <= 1.
Proof.
  split.
  - intros H. repeat (destruct H as [<-|H]; [cbn; lia|]). destruct H.
  - destruct o as [a b]. cbn [fst snd]. intros A.
    assert (Ha : a = -1 \/ a = 0 \/ a = 1) by lia. assert (Hb : b = -1 \/ b = 0 \/ b = 1) by lia.
    destruct Ha as [->|[->| ->]], Hb as [->|[->| ->]]; cbn in A |- *; try lia; auto 12.
Qed.

Section Grid.
Variables rows cols : Z.

Lemma dilate_square_iff m r c :
  dilate rows cols square_kernel m r c = true <-> exists a, near8 (r, c) a /\ region rows cols m a.
Proof.
  unfold dilate. rewrite existsb_exists. split.
  - intros (o & I & H). apply andb_true_iff in H. destruct H as [H1 H2]. apply inside_iff in H1. apply in_square in I.
    exists (r + fst o, c + snd o). split; [unfold near8; cbn; lia|]. split; [exact H1|exact H2].
  - intros ([x y] & N & G & M). exists (x - r, y - c). unfold near8 in N. cbn [fst snd] in *. split.
    + apply in_square. cbn. lia.
    + replace (r + (x - r)) with x by ring. replace (c + (y - c)) with y by ring.
      apply andb_true_iff. split; [now apply inside_iff|exact M].
Qed.
Lemma dilate_cross_iff m r c :
  dilate rows cols cross_kernel m r c = true <-> exists a, near4 (r, c) a /\ region rows cols m a.
Proof.
  unfold dilate. rewrite existsb_exists. split.
  - intros (o & I & H). apply andb_true_iff in H. destruct H as [H1 H2]. apply inside_iff in H1. apply in_cross in I.
    exists (r + fst o, c + snd o). split; [unfold near4; cbn; lia|]. split; [exact H1|exact H2].
  - intros ([x y] & N & G & M). exists (x - r, y - c). unfold near4 in N. cbn [fst snd] in *. split.
    + apply in_cross. cbn. lia.
    + replace (r + (x - r)) with x by ring. replace (c + (y - c)) with y by ring.
      apply andb_true_iff. split; [now apply inside_iff|exact M].
Qed.
Lemma erode_iff (border : bool) m r c :
  erode rows cols cross_kernel border m r c = true <->
  forall a, near4 (r, c) a -> if inside rows cols (fst a) (snd a) then m (fst a) (snd a) = true else border = true.
Proof.
  unfold erode. rewrite forallb_forall. split.
  - intros H [x y] N. specialize (H (x - r, y - c)). cbn [fst snd] in *.
    replace (r + (x - r)) with x in H by ring. replace (c + (y - c)) with y in H by ring.
    assert (I : In (x - r, y - c) cross_kernel) by (apply in_cross; unfold near4 in N; cbn in *; lia).
    specialize (H I). destruct (inside rows cols x y); exact H.
  - intros H o I. specialize (H (r + fst o, c + snd o)). apply in_cross in I.
    assert (N : near4 (r, c) (r + fst o, c + snd o)) by (unfold near4; cbn; lia).
    specialize (H N). cbn [fst snd] in H. destruct (inside rows cols (r + fst o) (c + snd o)); exact H.
Qed.

Lemma near4_list a b : near4 a b <-> exists o, In o cross_kernel /\ b = (fst a + fst o, snd a + snd o).
Proof.
  destruct a as [r c], b as [x y]. unfold near4. cbn [fst snd]. split.
  - intros N. exists (x - r, y - c). split; [apply in_cross; cbn; lia|cbn; f_equal; lia].
  - intros (o & I & E). injection E as -> ->. apply in_cross in I. lia.
Qed.

(** For every mask: a cell is a boundary cell if and only if it is at the border of the mask,
    in or next to it. *)
Theorem C80_boundary_cells : forall m r c,
  boundary_cell rows cols m r c = true <-> at_border rows cols m (r, c).
Proof.
  intros m r c. unfold boundary_cell, at_border. rewrite andb_true_iff, negb_true_iff, dilate_square_iff.
  split; intros [A B]; (split; [exact A|]).
  - unfold erode in B.
    assert (E : existsb (fun o => negb (if inside rows cols (r + fst o) (c + snd o) then m (r + fst o) (c + snd o) else false)) cross_kernel = true).
    { destruct (existsb _ cross_kernel) eqn:E; [reflexivity|exfalso].
      assert (F : forallb (fun o => if inside rows cols (r + fst o) (c + snd o) then m (r + fst o) (c + snd o) else false) cross_kernel = true).
      { apply forallb_forall. intros o I. destruct (if inside _ _ _ _ then _ else _) eqn:Q; [reflexivity|exfalso].
        assert (X : existsb (fun o => negb (if inside rows cols (r + fst o) (c + snd o) then m (r + fst o) (c + snd o) else false)) cross_kernel = true).
        { apply existsb_exists. exists o. split; [exact I|]. now rewrite Q. }
        congruence. }
      congruence. }
    apply existsb_exists in E. destruct E as (o & I & Q). exists (r + fst o, c + snd o). split.
    + apply near4_list. exists o. split; [exact I|reflexivity].
    + intros [G M]. apply inside_iff in G. cbn [fst snd] in *. rewrite G, M in Q. discriminate.
  - destruct B as (b & N & Out). destruct (erode rows cols cross_kernel false m r c) eqn:E; [exfalso|reflexivity].
    pose proof (proj1 (erode_iff false m r c) E b N) as X.
    destruct (inside rows cols (fst b) (snd b)) eqn:G; [|discriminate]. apply Out.
    split; [|exact X]. destruct b as [x y]. now apply inside_iff.
Qed.

Lemma upto_in n i : In i (upto n) <-> 0 <= i < n.
Proof.
  unfold upto. rewrite in_map_iff. split.
  - intros (k & <- & I). apply in_seq in I. lia.
  - intros H. exists (Z.to_nat i). split; [lia|]. apply in_seq. lia.
Qed.
Lemma cells_in cell : In cell (cells rows cols) <-> in_grid rows cols cell.
Proof.
  unfold cells, in_grid. rewrite in_flat_map. destruct cell as [r c]. cbn [fst snd]. split.
  - intros (x & I & J). apply upto_in in I. apply in_map_iff in J. destruct J as (y & E & J). injection E as <- <-.
    apply upto_in in J. auto.
  - intros [A B]. exists r. split; [now apply upto_in|]. apply in_map_iff. exists c. split; [reflexivity|now apply upto_in].
Qed.

Variable depth : Z -> Z -> R.
Variable side : Z.
Variable ki : mat.

Lemma boundary_of_cell_spec m pl mse cell l :
  boundary_of_cell rows cols depth side ki m pl mse cell = Some l ->
  (exists p, l = [p] /\ at_border rows cols m cell /\ center_point depth side ki pl mse cell p) \/
  (l = [] /\ forall p, at_border rows cols m cell -> ~ center_point depth side ki pl mse cell p).
Proof.
  unfold boundary_of_cell, add_point_if_in_plane, center_point, point_distance. destruct cell as [r c]. cbn [fst snd].
  destruct (boundary_cell rows cols m r c) eqn:B.
  - apply C80_boundary_cells in B. destruct (Rlt_dec 0 _) as [D|D].
    + destruct (screen_to_camera _ _) as [p|] eqn:S; [|discriminate]. destruct (Rlt_dec (Rabs _) _) as [Q|Q]; intros E; injection E as <-.
      * left. exists p. auto.
      * right. split; [reflexivity|]. intros p' _ (_ & X & Y). injection X as <-. contradiction.
    + intros E. injection E as <-. right. split; [reflexivity|]. intros p' _ (X & _). contradiction.
  - intros E. injection E as <-. right. split; [reflexivity|]. intros p' X. apply C80_boundary_cells in X. congruence.
Qed.

Lemma boundary_points_perm m pl mse o o' : Permutation o o' ->
  match boundary_points rows cols depth side ki m pl mse o, boundary_points rows cols depth side ki m pl mse o' with
  | Some l, Some l' => Permutation l l'
  | None, None => True
  | _, _ => False
  end.
Proof.
  induction 1 as [|cell o o' P IH|a b o|o o' o'' P1 IH1 P2 IH2]; cbn [boundary_points].
  - constructor.
  - destruct (boundary_of_cell _ _ _ _ _ _ _ _ cell) as [l|]; [|exact I].
    destruct (boundary_points _ _ _ _ _ _ _ _ o), (boundary_points _ _ _ _ _ _ _ _ o'); auto.
    now apply Permutation_app_head.
  - generalize (boundary_of_cell rows cols depth side ki m pl mse a) as ra, (boundary_of_cell rows cols depth side ki m pl mse b) as rb,
      (boundary_points rows cols depth side ki m pl mse o) as ro. intros [la|] [lb|] [lo|]; auto.
    rewrite !app_assoc. apply Permutation_app_tail, Permutation_app_comm.
  - destruct (boundary_points rows cols depth side ki m pl mse o) as [l1|], (boundary_points rows cols depth side ki m pl mse o') as [l2|],
      (boundary_points rows cols depth side ki m pl mse o'') as [l3|]; auto; try tauto.
    now transitivity l2.
Qed.

Lemma upto_nodup n : NoDup (upto n).
Proof. unfold upto. apply FinFun.Injective_map_NoDup; [intros a b E; lia|apply seq_NoDup]. Qed.
Lemma cells_nodup : NoDup (cells rows cols).
Proof.
  unfold cells. generalize (upto_nodup rows). induction (upto rows) as [|r rs IH]; intros N; [constructor|].
  inversion N as [|? ? N1 N2]; subst. cbn [flat_map]. 
  assert (A : NoDup (map (fun c => (r, c)) (upto cols))) by (apply FinFun.Injective_map_NoDup; [intros a b E; congruence|apply upto_nodup]).
  specialize (IH N2). revert A. 
  assert (D : forall x, In x (map (fun c => (r, c)) (upto cols)) -> ~ In x (flat_map (fun r0 => map (fun c => (r0, c)) (upto cols)) rs)).
  { intros x I J. apply in_map_iff in I. destruct I as (c & <- & _). apply in_flat_map in J. destruct J as (r' & R' & J).
    apply in_map_iff in J. destruct J as (c' & E & _). injection E as -> _. contradiction. }
  revert D. induction (map (fun c => (r, c)) (upto cols)) as [|x l IHl]; intros D A; cbn [app]; [exact IH|].
  inversion A; subst. constructor.
  - rewrite in_app_iff. intros [X|X]; [contradiction|]. apply (D x); [now left|exact X].
  - apply IHl; [|assumption]. intros y Y. apply D. now right.
Qed.

(** For every mask, depth image, plane and scheduling of the cells: the points found are the
    points measured at the centres of the cells at the border of the mask which are at less
    than three standard deviations of the plane, one for each such cell; the points do not
    depend on the scheduling, only their order does. *)
Theorem C80_boundary_points : forall m pl mse order points,
  Permutation order (cells rows cols) ->
  boundary_points rows cols depth side ki m pl mse order = Some points ->
  (exists selected, NoDup selected /\ Forall2 (center_point depth side ki pl mse) selected points /\
     forall cell, In cell selected <->
       in_grid rows cols cell /\ at_border rows cols m cell /\ exists p, center_point depth side ki pl mse cell p) /\
  exists points', boundary_points rows cols depth side ki m pl mse (cells rows cols) = Some points' /\ Permutation points points'.
Proof.
  intros m pl mse order points P E.
  assert (G : forall o l, NoDup o -> boundary_points rows cols depth side ki m pl mse o = Some l ->
     exists selected, NoDup selected /\ Forall2 (center_point depth side ki pl mse) selected l /\
       forall cell, In cell selected <-> In cell o /\ at_border rows cols m cell /\ exists p, center_point depth side ki pl mse cell p).
  { induction o as [|cell o IH]; cbn [boundary_points]; intros l N H.
    - injection H as <-. exists []. split; [constructor|]. split; [constructor|]. intros x. cbn. tauto.
    - destruct (boundary_of_cell _ _ _ _ _ _ _ _ cell) as [l1|] eqn:B; [|discriminate].
      destruct (boundary_points _ _ _ _ _ _ _ _ o) as [l2|]; [|discriminate]. injection H as <-.
      inversion N as [|? ? N1 N2]; subst.
      destruct (IH l2 N2 eq_refl) as (sel & S1 & S2 & S3). apply boundary_of_cell_spec in B.
      destruct B as [(p0 & -> & A & C)|[-> Q]]; cbn [app].
      + exists (cell :: sel). split; [|split].
        * constructor; [|exact S1]. rewrite S3. tauto.
        * now constructor.
        * intros x. cbn [In]. rewrite S3. split.
          -- intros [<-|X]; [|tauto]. split; [now left|]. split; [exact A|]. now exists p0.
          -- intros ([<-|X] & Y); [now left|]. right. tauto.
      + exists sel. split; [exact S1|]. split; [exact S2|]. intros x. cbn [In]. rewrite S3. split; [tauto|].
        intros ([<-|X] & Y1 & (p & Y2)); [destruct (Q p Y1 Y2)|]. split; [exact X|]. split; [exact Y1|]. now exists p. }
  split.
  - assert (ND : NoDup order) by (eapply Permutation_NoDup; [symmetry; exact P|apply cells_nodup]).
    destruct (G order points ND E) as (sel & S1 & S2 & S3). exists sel. split; [exact S1|]. split; [exact S2|].
    intros cell. rewrite S3, <- cells_in. split; intros (X & Y); (split; [|exact Y]).
    + exact (Permutation_in cell P X).
    + exact (Permutation_in cell (Permutation_sym P) X).
  - pose proof (boundary_points_perm m pl mse order (cells rows cols) P) as Q. rewrite E in Q.
    destruct (boundary_points _ _ _ _ _ _ _ _ (cells rows cols)) as [l|]; [|destruct Q]. exists l. auto.
Qed.

(** The centres of the cells are pixels of the image, when the cells fit in the image. *)
Theorem C80_reads_in_image : forall width height cell,
  0 < side -> rows * side <= height -> cols * side <= width -> in_grid rows cols cell ->
  0 <= snd cell * side + side / 2 < width /\ 0 <= fst cell * side + side / 2 < height.
Proof.
  intros width height [r c] S Hh Hw [A B]. cbn [fst snd] in *.
  assert (0 <= side / 2 < side) by (split; [apply Z.div_pos; lia|apply Z.div_lt; lia]). nia.
Qed.

(** The computation only fails (and the program terminates) when a measured depth is positive
    but not more than the machine epsilon, and the pixel coordinates are never negative. *)
Theorem C80_never_terminates : forall m pl mse order,
  0 <= side -> (forall cell, In cell order -> in_grid rows cols cell) ->
  (forall x y, (depth y x <= 0)%R \/ (machine_epsilon < depth y x)%R) ->
  exists points, boundary_points rows cols depth side ki m pl mse order = Some points.
Proof.
  intros m pl mse order S I D. induction order as [|[r c] order IH]; cbn [boundary_points]; [eauto|].
  destruct IH as [l ->]; [intros x J; apply I; now right|].
  assert (G : in_grid rows cols (r, c)) by (apply I; now left). destruct G as [G1 G2]. cbn [fst snd] in *.
  assert (exists l', boundary_of_cell rows cols depth side ki m pl mse (r, c) = Some l') as [l' ->]; [|eauto].
  unfold boundary_of_cell, add_point_if_in_plane. cbn [fst snd]. destruct (boundary_cell rows cols m r c); [|eauto].
  set (x := c * side + side / 2). set (y := r * side + side / 2).
  assert (X : 0 <= x) by (unfold x; pose proof (Z.div_pos side 2 ltac:(lia) ltac:(lia)); nia).
  assert (Y : 0 <= y) by (unfold y; pose proof (Z.div_pos side 2 ltac:(lia) ltac:(lia)); nia).
  destruct (Rlt_dec 0 (depth y x)) as [Q|Q]; [|eauto].
  unfold screen_to_camera. cbn [vx vy vz].
  apply IZR_le in X, Y. destruct (Rlt_dec (IZR x) 0); [lra|]. destruct (Rlt_dec (IZR y) 0); [lra|].
  unfold double_equal. destruct (Rle_dec _ machine_epsilon) as [Z|Z]; [|eauto].
  rewrite Rminus_0_r, Rabs_pos_eq in Z by lra. destruct (D x y); lra.
Qed.

(** A mask which is not empty has border cells. *)
Theorem C80_border_exists : forall m cell, region rows cols m cell ->
  exists c, in_grid rows cols c /\ at_border rows cols m c.
Proof.
  intros m [r c] Hm. destruct Hm as [G M]. unfold in_grid in G. cbn [fst snd] in *.
  (* the topmost cell of the column up to this one *)
  assert (H : forall n r, r = Z.of_nat n -> 0 <= r < rows -> m r c = true -> exists r', 0 <= r' < rows /\ m r' c = true /\ (r' = 0 \/ m (r' - 1) c = false)).
  { induction n as [|n IH]; intros r1 E R1 M1.
    - exists r1. split; [exact R1|]. split; [exact M1|]. left. lia.
    - destruct (m (r1 - 1) c) eqn:P.
      + apply (IH (r1 - 1)); [lia|lia|exact P].
      + exists r1. auto. }
  destruct (H (Z.to_nat r) r ltac:(lia) ltac:(lia) M) as (r' & R' & M' & T).
  exists (r', c). split; [split; cbn; lia|]. split.
  - exists (r', c). split; [unfold near8; cbn; lia|]. split; [split; cbn; lia|exact M'].
  - exists (r' - 1, c). split; [unfold near4; cbn; lia|]. intros [[X _] Y]. cbn [fst snd] in *.
    destruct T as [T|T]; [lia|congruence].
Qed.
End Grid.
Print Assumptions C80_boundary_cells.
Print Assumptions C80_boundary_points.
Print Assumptions C80_reads_in_image.
Print Assumptions C80_never_terminates.
Print Assumptions C80_border_exists.

(** A plane is reported only if at least three points were found, with a valid polygon. *)
Theorem C80_enough_points : forall (Polygon : Type) (polygon : list vec -> option Polygon) points b,
  plane_reported polygon points = Some b <-> (3 <= length points)%nat /\ polygon points = Some b.
Proof.
  intros Polygon polygon points b. unfold plane_reported. destruct (Nat.ltb_spec (length points) 3).
  - split; [discriminate|lia].
  - split; [auto|tauto].
Qed.
Print Assumptions C80_enough_points.

(** A mask of 2 x 2 cells in a grid of 4 x 4: it has no interior, its border is made of the
    cells of the mask and of those around. The centre of the cell (1, 1) is measured on the
    plane of depth 1000. *)
Example C80_example :
  let m : image := fun r c => (1 <=? r) && (r <=? 2) && (1 <=? c) && (c <=? 2) in
  (forall r c, 0 <= r < 4 -> 0 <= c < 4 -> boundary_cell 4 4 m r c = true) /\
  let depth := fun y x : Z => if (x =? 30) && (y =? 30) then 1000%R else 0%R in
  exists p, boundary_points 4 4 depth 20 mid m (mkPlane (mkV 0 0 (-1)) 1000) 1 (cells 4 4) = Some [p] /\ vz p = 1000%R.
Proof.
  cbv zeta. split.
  - intros r c Hr Hc.
    assert (r = 0 \/ r = 1 \/ r = 2 \/ r = 3) by lia. assert (c = 0 \/ c = 1 \/ c = 2 \/ c = 3) by lia.
    intuition (subst; reflexivity).
  - set (depth := fun y x : Z => _).
    set (m := fun r c : Z => _).
    set (p := mkV (1000 * (1 * 30 + 0 * 30 + 0 * 1)) (1000 * (0 * 30 + 1 * 30 + 0 * 1)) 1000).
    exists p. split; [|reflexivity].
    assert (A : forall r c, In (r, c) (cells 4 4) ->
       boundary_of_cell 4 4 depth 20 mid m (mkPlane (mkV 0 0 (-1)) 1000) 1 (r, c) = if (r =? 1) && (c =? 1) then Some [p] else Some []).
    { intros r c I. apply cells_in in I. destruct I as [I1 I2]. cbn [fst snd] in *.
      assert (BC : boundary_cell 4 4 m r c = true).
      { assert (r = 0 \/ r = 1 \/ r = 2 \/ r = 3) by lia. assert (c = 0 \/ c = 1 \/ c = 2 \/ c = 3) by lia.
        intuition (subst; reflexivity). }
      unfold boundary_of_cell. cbn [fst snd]. rewrite BC. unfold add_point_if_in_plane.
      unfold depth at 1. destruct ((r =? 1) && (c =? 1)) eqn:Q.
      - assert (r = 1 /\ c = 1) as [-> ->] by lia. cbn -[IZR]. destruct (Rlt_dec 0 1000) as [_|X]; [|exfalso; apply X; lra].
        unfold screen_to_camera. cbn [vx vy vz]. change (1 * 20 + 20 / 2) with 30.
        unfold depth. cbn -[IZR Rlt_dec double_equal machine_epsilon].
        destruct (Rlt_dec 30 0); [lra|]. unfold double_equal.
        destruct (Rle_dec (Rabs (1000 - 0)) machine_epsilon) as [X|X].
        + exfalso. rewrite Rminus_0_r, Rabs_pos_eq in X by lra. unfold machine_epsilon in X.
          assert (/ 2 ^ 52 <= 1)%R. { rewrite <- Rinv_1. apply Rinv_le_contravar; [lra|]. apply pow_R1_Rle. lra. } lra.
        + unfold point_distance, dot. cbn [pl_normal pl_d vx vy vz]. 
          destruct (Rlt_dec _ _) as [_|Y].
          * unfold p, mvmul, mid, dot. cbn [r0 r1 r2 vx vy vz]. reflexivity.
          * exfalso. apply Y. replace (_ + 1000)%R with 0%R by ring. rewrite Rabs_R0, sqrt_1. lra.
      - destruct (Rlt_dec 0 _) as [X|X]; [|reflexivity]. exfalso.
        change (20 / 2) with 10 in X. destruct ((c * 20 + 10 =? 30) && (r * 20 + 10 =? 30)) eqn:Y; [lia|lra]. }
    assert (B : forall l, (forall r c, In (r, c) l -> In (r, c) (cells 4 4)) ->
       boundary_points 4 4 depth 20 mid m (mkPlane (mkV 0 0 (-1)) 1000) 1 l =
       Some (flat_map (fun cell => if (fst cell =? 1) && (snd cell =? 1) then [p] else []) l)).
    { induction l as [|[r c] l IH]; intros H; [reflexivity|]. cbn [boundary_points flat_map].
      rewrite A by (apply H; now left). rewrite IH by (intros; apply H; now right).
      cbn [fst snd]. destruct ((r =? 1) && (c =? 1)); reflexivity. }
    rewrite B by auto. reflexivity.
Qed.

(** ** C81 — cylinders *)
Lemma closed_iff rows cols m r c :
  closed rows cols m r c = true <-> filled rows cols m (r, c).
Proof.
  unfold closed. rewrite erode_iff. unfold filled. split.
  - intros H a G N. specialize (H a N). destruct a as [x y]. cbn [fst snd] in *.
    rewrite (proj2 (inside_iff rows cols x y) G) in H. now apply dilate_cross_iff in H.
  - intros H [x y] N. cbn [fst snd]. destruct (inside rows cols x y) eqn:I; [|reflexivity].
    apply inside_iff in I. apply dilate_cross_iff. exact (H (x, y) I N).
Qed.
Lemma eroded_iff rows cols m r c : in_grid rows cols (r, c) ->
  erode rows cols cross_kernel true (closed rows cols m) r c = true <-> interior rows cols m (r, c).
Proof.
  intros G. rewrite erode_iff. unfold interior. split.
  - intros H. split; [exact G|]. intros a Ga N. specialize (H a N). destruct a as [x y]. cbn [fst snd] in *.
    rewrite (proj2 (inside_iff rows cols x y) Ga) in H. now apply closed_iff in H.
  - intros [_ H] [x y] N. cbn [fst snd]. destruct (inside rows cols x y) eqn:I; [|reflexivity].
    apply inside_iff in I. apply closed_iff. exact (H (x, y) I N).
Qed.

(** For every grid and every region of a cylinder: the cylinder is kept if and only if the
    region, its small holes filled, has an interior cell, and some cell of the grid is not
    such an interior cell. *)
Theorem C81_kept : forall rows cols m,
  cylinder_kept rows cols m = true <->
  (exists cell, interior rows cols m cell) /\ (exists cell, in_grid rows cols cell /\ ~ interior rows cols m cell).
Proof.
  intros rows cols m. unfold cylinder_kept.
  assert (Mx : existsb (fun b => b) (eroded_cells rows cols m) = true <-> exists cell, interior rows cols m cell).
  { rewrite existsb_exists. unfold eroded_cells. split.
    - intros (b & I & E). subst b. apply in_map_iff in I. destruct I as ([r c] & E & I). apply cells_in in I.
      exists (r, c). now apply eroded_iff.
    - intros ([r c] & H). exists true. split; [|reflexivity]. apply in_map_iff. exists (r, c). split.
      + apply eroded_iff; [apply H|exact H].
      + apply cells_in. apply H. }
  assert (Mn : forallb (fun b => b) (eroded_cells rows cols m) = false <-> exists cell, in_grid rows cols cell /\ ~ interior rows cols m cell).
  { split.
    - intros F. assert (E : existsb negb (eroded_cells rows cols m) = true).
      { destruct (existsb negb _) eqn:E; [reflexivity|exfalso].
        assert (X : forallb (fun b => b) (eroded_cells rows cols m) = true).
        { apply forallb_forall. intros b I. destruct b; [reflexivity|exfalso].
          assert (Y : existsb negb (eroded_cells rows cols m) = true) by (apply existsb_exists; exists false; auto). congruence. }
        congruence. }
      apply existsb_exists in E. destruct E as (b & I & E). destruct b; [discriminate|].
      apply in_map_iff in I. destruct I as ([r c] & Q & I). apply cells_in in I. exists (r, c). split; [exact I|].
      intros X. apply eroded_iff in X; [|exact I]. cbn [fst snd] in Q. congruence.
    - intros ([r c] & G & N). destruct (forallb _ _) eqn:F; [exfalso|reflexivity].
      rewrite forallb_forall in F. apply N. apply eroded_iff; [exact G|].
      apply F. unfold eroded_cells. apply in_map_iff. exists (r, c). split; [reflexivity|now apply cells_in]. }
  destruct (existsb _ _) eqn:A, (forallb _ _) eqn:B; cbn.
  - split; [discriminate|]. intros [_ X]. apply Mn in X. discriminate.
  - split; [intros _; split; [now apply Mx|now apply Mn]|reflexivity].
  - split; [discriminate|]. intros [X _]. apply Mx in X. discriminate.
  - split; [discriminate|]. intros [X _]. apply Mx in X. discriminate.
Qed.
Print Assumptions C81_kept.

(** Filling adds to the region: a region with a cell surrounded by its own cells has an
    interior cell. *)
Theorem C81_thick_region : forall rows cols m cell,
  in_grid rows cols cell -> (forall a, in_grid rows cols a -> near4 cell a -> region rows cols m a) ->
  interior rows cols m cell.
Proof.
  intros rows cols m cell G H. split; [exact G|]. intros a Ga Na b Gb Nb.
  exists a. split; [unfold near4 in *; lia|]. now apply H.
Qed.
Print Assumptions C81_thick_region.

(** A region as large as the grid is the most visible of the cylinders, and is not kept. *)
Theorem C81_whole_grid_refuted : forall rows cols m,
  (forall cell, in_grid rows cols cell -> region rows cols m cell) -> cylinder_kept rows cols m = false.
Proof.
  intros rows cols m H. destruct (cylinder_kept rows cols m) eqn:K; [exfalso|reflexivity].
  apply C81_kept in K. destruct K as [_ (cell & G & N)]. apply N. apply C81_thick_region; auto.
Qed.
Print Assumptions C81_whole_grid_refuted.

(** The cylinders reported are the segments of the kept cylinders, in order; nothing is read out
    of range when the regions refer to segments. *)
Theorem C81_reported : forall (Cylinder : Type) rows cols labels (segments : list Cylinder) region_map,
  (forall region, In region region_map -> (region < length segments)%nat) ->
  exists l, cylinders_reported rows cols labels segments 0 region_map = Some l /\
    Forall2 (fun region s => nth_error segments region = Some s)
      (map snd (filter (fun e => cylinder_kept rows cols (fun r c => labels r c =? Z.of_nat (fst e) + 1))
                       (combine (seq 0 (length region_map)) region_map))) l.
Proof.
  intros Cylinder rows cols labels segments region_map H. change 0 with (Z.of_nat 0). generalize 0%nat as i.
  induction region_map as [|region rm IH]; intros i; cbn [cylinders_reported length seq combine filter].
  - exists []. split; [reflexivity|constructor].
  - destruct (IH (fun x X => H x (or_intror X)) (S i)) as (l & E & F). rewrite Nat2Z.inj_succ, <- Z.add_1_r in E. rewrite E.
    cbn [fst]. destruct (cylinder_kept _ _ _).
    + destruct (nth_error segments region) as [s|] eqn:N.
      * exists (s :: l). split; [reflexivity|]. cbn [map snd]. constructor; assumption.
      * exfalso. apply nth_error_None in N. specialize (H region (or_introl eq_refl)). lia.
    + exists l. split; [reflexivity|exact F].
Qed.
Print Assumptions C81_reported.

(** In a grid of 4 x 6: a column of cells of width 3 is kept, one of width 1 is not, and the
    whole grid is not. *)
Example C81_example :
  cylinder_kept 4 6 (fun r c => (1 <=? c) && (c <=? 3)) = true /\ cylinder_kept 4 6 (fun r c => c =? 2) = false /\
  cylinder_kept 4 6 (fun _ _ => true) = false /\
  cylinders_reported 4 6 (fun r c => if c <=? 1 then 1 else if c =? 3 then 2 else if 4 <=? c then 3 else 0)
    [10; 20; 30] 0 [2; 0; 1]%nat = Some [30; 20].
Proof. repeat split; vm_compute; reflexivity. Qed.
