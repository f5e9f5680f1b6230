(** Properties C38 and C39: organised point cloud, rectification of the depth image. *)
From Coq Require Import QArith Qround.
From Verif Require Import DepthMapModel DepthMapSpec.
Local Open Scope Z_scope.

(** ** Stores and schedules *)

Lemma in_upto : forall n z, In z (upto n) <-> 0 <= z < n.
Proof.
  intros n z. unfold upto. rewrite in_map_iff. split.
  - intros (k & <- & K). apply in_seq in K. lia.
  - intros R. exists (Z.to_nat z). split; [lia|]. apply in_seq. lia.
Qed.

Lemma schedule_in : forall A (tasks : list (list A)) trace, schedule tasks trace ->
  forall a, In a trace <-> exists t, In t tasks /\ In a t.
Proof.
  intros A tasks trace S. induction S as [tasks E|before b t after trace S IH]; intros a.
  - split; [easy|]. intros (t & T & I). now rewrite (E t T) in I.
  - cbn [In]. rewrite IH. split.
    + intros [<-|(u & U & I)].
      * exists (b :: t). split; [apply in_elt|now left].
      * apply in_app_or in U. destruct U as [U|[<-|U]].
        -- exists u. split; [apply in_or_app; now left|easy].
        -- exists (b :: t). split; [apply in_elt|now right].
        -- exists u. split; [apply in_or_app; now right; right|easy].
    + intros (u & U & I). apply in_app_or in U. destruct U as [U|[<-|U]].
      * right. exists u. split; [apply in_or_app; now left|easy].
      * destruct I as [<-|I]; [now left|]. right. exists t. split; [apply in_elt|easy].
      * right. exists u. split; [apply in_or_app; now right; right|easy].
Qed.

(** running the tasks one after the other is a schedule *)
Lemma schedule_sequential : forall A (tasks : list (list A)), schedule tasks (concat tasks).
Proof.
  intros A tasks.
  assert (G : forall (done : list (list A)) (t : list A) (rest : list (list A)), (forall u, In u done -> u = []) -> schedule (done ++ [] :: rest) (concat rest) ->
    schedule (done ++ t :: rest) (t ++ concat rest)).
  { intros done t rest D S. induction t as [|a t IH]; [easy|]. now apply (schedule_step done a t rest (t ++ concat rest)). }
  assert (H : forall (rest done : list (list A)), (forall u, In u done -> u = []) -> schedule (done ++ rest) (concat rest)).
  { induction rest as [|t rest IH]; intros done D.
    - rewrite app_nil_r. now apply schedule_end.
    - cbn [concat]. apply G; [easy|].
      replace (done ++ [] :: rest) with ((done ++ [[]]) ++ rest) by now rewrite <- app_assoc.
      apply IH. intros u U. apply in_app_or in U. destruct U as [U|[<-|[]]]; [now apply D|easy]. }
  now apply (H tasks []).
Qed.

Lemma execute_app : forall V (zero : V) a b, execute zero (a ++ b) = fold_left write b (execute zero a).
Proof. intros. apply fold_left_app. Qed.
Lemma write_at : forall V (a : array V) s, write a s (st_at s) = st_value s.
Proof. intros V a [[r c] v]. unfold write. cbn. now rewrite !Z.eqb_refl. Qed.
Lemma write_other : forall V (a : array V) s i, st_at s <> i -> write a s i = a i.
Proof.
  intros V a [[r c] v] [r' c'] N. unfold write. cbn in *.
  destruct (Z.eqb_spec r' r), (Z.eqb_spec c' c); cbn; try reflexivity. now subst.
Qed.
Lemma at_dec : forall i j : Z * Z, {i = j} + {i <> j}.
Proof. decide equality; apply Z.eq_dec. Qed.
Lemma execute_none : forall V (zero : V) trace i, (forall s, In s trace -> st_at s <> i) -> execute zero trace i = zero.
Proof.
  intros V zero trace i. induction trace as [|s trace IH] using rev_ind; intros N; [easy|].
  rewrite execute_app. cbn. rewrite write_other; [|apply N, in_or_app; right; now left].
  apply IH. intros s' S'. apply N, in_or_app. now left.
Qed.
Lemma execute_some : forall V (zero : V) trace i, (exists s, In s trace /\ st_at s = i) ->
  exists s, In s trace /\ st_at s = i /\ execute zero trace i = st_value s.
Proof.
  intros V zero trace i. induction trace as [|s trace IH] using rev_ind; intros (s0 & I0 & A0); [easy|].
  rewrite execute_app. cbn. destruct (at_dec (st_at s) i) as [<-|N].
  - exists s. rewrite write_at. split; [apply in_or_app; right; now left|easy].
  - rewrite write_other by easy. apply in_app_or in I0. destruct I0 as [I0|[<-|[]]]; [|easy].
    destruct (IH (ex_intro _ s0 (conj I0 A0))) as (s1 & I1 & A1 & E1).
    exists s1. split; [apply in_or_app; now left|easy].
Qed.
(** the value of a place where every store puts the same value *)
Lemma execute_one : forall V (zero : V) trace s, In s trace ->
  (forall s', In s' trace -> st_at s' = st_at s -> st_value s' = st_value s) ->
  execute zero trace (st_at s) = st_value s.
Proof.
  intros V zero trace s I U. destruct (execute_some V zero trace (st_at s)) as (s1 & I1 & A1 & ->); [now exists s|].
  now apply U.
Qed.

(** ** C38 *)

Lemma cell_bounds : forall n cs k, 0 < cs -> 0 <= k < n * cs ->
  0 <= k / cs < n /\ 0 <= k mod cs < cs /\ k = (k / cs) * cs + k mod cs.
Proof.
  intros n cs k C K. pose proof (Z.mod_pos_bound k cs C). pose proof (Z.div_mod k cs ltac:(lia)).
  split; [split; [apply Z.div_pos; lia|apply Z.div_lt_upper_bound; lia]|]. split; [easy|]. lia.
Qed.

Lemma cell_map_value : forall width height cs row column,
  0 < cs -> (cs | width) -> (cs | height) -> width * height < 2 ^ 31 -> pixel width height row column ->
  let cell := (row / cs) * (width / cs) + column / cs in
  let inside := (row mod cs) * cs + column mod cs in
  cell_map width cs row column = Done (cell * (cs * cs) + inside) /\
  0 <= inside < cs * cs /\ 0 <= cell < (width / cs) * (height / cs) /\
  (width / cs) * (height / cs) * (cs * cs) = width * height.
Proof.
  intros width height cs row column C (W & ->) (H & ->) B ((R0 & R1) & (C0 & C1)) cell inside.
  destruct (cell_bounds H cs row C ltac:(lia)) as (rc & rl & re).
  destruct (cell_bounds W cs column C ltac:(lia)) as (cc & cl & ce).
  subst cell inside. rewrite !Z.div_mul by lia.
  set (a := row / cs) in *. set (b := row mod cs) in *. set (c := column / cs) in *. set (d := column mod cs) in *.
  assert (I : 0 <= b * cs + d < cs * cs) by nia.
  assert (K : 0 <= a * W + c < W * H) by nia.
  assert (E : W * H * (cs * cs) = W * cs * (H * cs)) by ring.
  split; [|split; [easy|split; [easy|easy]]].
  unfold cell_map. destruct (Z.eqb_spec cs 0); [lia|]. fold a b c d. rewrite Z.div_mul by lia.
  assert (T : 0 <= (a * W + c) * (cs * cs) + (b * cs + d) < 2 ^ 31).
  { split; [nia|]. apply Z.le_lt_trans with (W * H * (cs * cs) - 1); [nia|lia]. }
  assert (CS : 0 < cs * cs <= W * H * (cs * cs)) by nia.
  change (2 ^ 31) with 2147483648 in *.
  unfold u32. change (2 ^ 32) with 4294967296.
  assert (S1 : 0 <= a * W <= a * W + c) by nia.
  assert (S2 : a * W + c < W * H) by lia.
  assert (S3 : W * H <= W * H * (cs * cs)) by nia.
  assert (S4 : 0 <= (a * W + c) * (cs * cs)) by (apply Z.mul_nonneg_nonneg; lia).
  assert (S5 : 0 <= b * cs) by (apply Z.mul_nonneg_nonneg; lia).
  rewrite (Z.mod_small (a * W)) by lia. rewrite (Z.mod_small (a * W + c)) by lia.
  rewrite (Z.mod_small (cs * cs)) by lia. rewrite (Z.mod_small ((a * W + c) * (cs * cs))) by lia.
  rewrite (Z.mod_small (b * cs)) by lia. rewrite (Z.mod_small (_ + b * cs)) by lia.
  rewrite Z.mod_small by lia.
  destruct (Z.ltb_spec ((a * W + c) * (cs * cs) + b * cs + d) 2147483648); [f_equal; lia|lia].
Qed.

Lemma div_mod_mixed : forall q r q' r' n, 0 < n -> 0 <= r < n -> 0 <= r' < n -> q * n + r = q' * n + r' -> q = q' /\ r = r'.
Proof. intros. assert (q = q') by nia. subst. lia. Qed.

(** C38: when the size of the cells divides the size of the image, the pixels and the slots
    of the organised cloud are in bijection, and the slots of a cell (row [i], column [j] of
    the grid) are one block of consecutive slots. *)
Theorem C38_one_slot_by_pixel :
  forall width height cell_size, divided width height cell_size ->
    (forall row column, pixel width height row column ->
       exists id, cell_map width cell_size row column = Done id /\ 0 <= id < width * height) /\
    (forall row column row' column', pixel width height row column -> pixel width height row' column' ->
       cell_map width cell_size row column = cell_map width cell_size row' column' -> row = row' /\ column = column') /\
    (forall id, 0 <= id < width * height ->
       exists row column, pixel width height row column /\ cell_map width cell_size row column = Done id).
Proof.
  intros width height cs (C & W0 & H0 & W & H & B). split; [|split].
  - intros row column P. destruct (cell_map_value _ _ _ _ _ C W H B P) as (-> & I & K & E).
    eexists. split; [reflexivity|]. rewrite <- E. nia.
  - intros row column row' column' P P' E.
    destruct (cell_map_value _ _ _ _ _ C W H B P) as (E1 & I1 & K1 & _).
    destruct (cell_map_value _ _ _ _ _ C W H B P') as (E2 & I2 & K2 & _).
    rewrite E1, E2 in E. injection E as E.
    apply div_mod_mixed in E; [|clear - C; nia|easy|easy]. destruct E as [Ec Ei].
    destruct P as [R K], P' as [R' K']. destruct W as (w & ->), H as (h & ->). rewrite Z.div_mul in Ec by lia.
    destruct (cell_bounds h cs row C ltac:(lia)) as (rc & rl & re). destruct (cell_bounds w cs column C ltac:(lia)) as (cc & cl & ce).
    destruct (cell_bounds h cs row' C ltac:(lia)) as (rc' & rl' & re'). destruct (cell_bounds w cs column' C ltac:(lia)) as (cc' & cl' & ce').
    apply div_mod_mixed in Ec; [|lia|lia|lia]. apply div_mod_mixed in Ei; [|lia|lia|lia].
    destruct Ec as [e1 e2], Ei as [e3 e4]. split; [rewrite re, re', e1, e3|rewrite ce, ce', e2, e4]; reflexivity.
  - intros id I. destruct W as (w & ->), H as (h & ->).
    assert (N : 0 < cs * cs) by nia.
    assert (Wp : 0 < w) by nia. assert (Hp : 0 < h) by nia.
    set (cell := id / (cs * cs)). set (inside := id mod (cs * cs)).
    assert (De : id = cell * (cs * cs) + inside) by (pose proof (Z.div_mod id (cs * cs)); lia).
    pose proof (Z.mod_pos_bound id (cs * cs) N) as Bi. fold inside in Bi.
    assert (Bc : 0 <= cell < w * h).
    { subst cell. split; [apply Z.div_pos; lia|]. apply Z.div_lt_upper_bound; [easy|]. nia. }
    set (a := cell / w). set (c := cell mod w). set (b := inside / cs). set (d := inside mod cs).
    assert (Ea : cell = a * w + c) by (pose proof (Z.div_mod cell w); lia).
    assert (Eb : inside = b * cs + d) by (pose proof (Z.div_mod inside cs); lia).
    pose proof (Z.mod_pos_bound cell w Wp) as Cb. fold c in Cb. pose proof (Z.mod_pos_bound inside cs C) as Db. fold d in Db.
    assert (Ab : 0 <= a < h) by (subst a; split; [apply Z.div_pos; lia|apply Z.div_lt_upper_bound; lia]).
    assert (Bb : 0 <= b < cs) by (subst b; split; [apply Z.div_pos; lia|apply Z.div_lt_upper_bound; lia]).
    assert (P : pixel (w * cs) (h * cs) (a * cs + b) (c * cs + d)) by (clear - C Ab Bb Cb Db; split; split; nia).
    exists (a * cs + b), (c * cs + d). split; [easy|].
    destruct (cell_map_value (w * cs) (h * cs) cs _ _ C ltac:(now exists w) ltac:(now exists h) B P) as (-> & _).
    rewrite (Z.div_add_l a cs b), (Z.div_small b), (Z.div_add_l c cs d), (Z.div_small d), Z.div_mul by lia.
    rewrite (Z.add_comm (a * cs)), (Z.add_comm (c * cs)), !Z.mod_add, (Z.mod_small b), (Z.mod_small d) by lia.
    f_equal. rewrite De, Ea, Eb. ring.
Qed.
Print Assumptions C38_one_slot_by_pixel.

Theorem C38_cells_are_contiguous :
  forall width height cell_size i j, divided width height cell_size ->
    0 <= i < height / cell_size -> 0 <= j < width / cell_size ->
    let first := (i * (width / cell_size) + j) * (cell_size * cell_size) in
    forall row column id, pixel width height row column -> cell_map width cell_size row column = Done id ->
      (i * cell_size <= row < (i + 1) * cell_size /\ j * cell_size <= column < (j + 1) * cell_size <->
       first <= id < first + cell_size * cell_size).
Proof.
  intros width height cs i j (C & W0 & H0 & W & H & B) Hi Hj first row column id P E.
  destruct (cell_map_value _ _ _ _ _ C W H B P) as (E1 & I1 & K1 & _). rewrite E in E1. injection E1 as ->.
  destruct P as [R K]. destruct W as (w & ->), H as (h & ->). subst first. rewrite !Z.div_mul in * by lia.
  destruct (cell_bounds h cs row C ltac:(lia)) as (rc & rl & re). destruct (cell_bounds w cs column C ltac:(lia)) as (cc & cl & ce).
  set (a := row / cs) in *. set (b := row mod cs) in *. set (c := column / cs) in *. set (d := column mod cs) in *.
  split.
  - intros [Qr Qc]. assert (a = i) by (clear - C Qr rl re; nia). assert (c = j) by (clear - C Qc cl ce; nia). subst i j. lia.
  - intros Q. assert (Qe : a * w + c = i * w + j).
    { set (u := a * w + c) in *. set (u' := i * w + j) in *. set (n := cs * cs) in *. set (e := b * cs + d) in *. clear - Q I1. nia. }
    apply div_mod_mixed in Qe; [|lia|easy|easy]. destruct Qe as [-> ->]. lia.
Qed.
Print Assumptions C38_cells_are_contiguous.

Section Cloud.
Context {V : Type}.
Variable zero : V.
Variable depth : Z -> Z -> V.
Variable positive : V -> bool.
Variable camera_x camera_y : Z -> Z -> V -> V.
Notation tasks := (cloud_tasks depth positive camera_x camera_y).

Lemma in_cloud_tasks : forall width height cs s,
  (exists t, In t (tasks width height cs) /\ In s t) <->
  (exists row column, pixel width height row column /\
     In s (cloud_pixel depth positive camera_x camera_y width cs row column)).
Proof.
  intros width height cs s. unfold cloud_tasks. split.
  - intros (t & T & I). apply in_map_iff in T. destruct T as (row & <- & R). apply in_upto in R.
    unfold cloud_row in I. apply in_flat_map in I. destruct I as (column & K & I). apply in_upto in K.
    now exists row, column.
  - intros (row & column & (R & K) & I). exists (cloud_row depth positive camera_x camera_y width cs row).
    split; [apply in_map, in_upto; easy|]. apply in_flat_map. exists column. split; [now apply in_upto|easy].
Qed.

(** C38: for every schedule of the parallel rows, the slot of a pixel with a depth has its
    point, and the slot of the others is null. *)
Theorem C38_same_cloud_for_every_schedule :
  forall width height cell_size, divided width height cell_size ->
  forall trace, schedule (tasks width height cell_size) trace ->
  forall row column id, pixel width height row column -> cell_map width cell_size row column = Done id ->
    let z := depth row column in
    let cloud := execute zero trace in
    if positive z
    then cloud (id, 0) = camera_x column row z /\ cloud (id, 1) = camera_y column row z /\ cloud (id, 2) = z
    else cloud (id, 0) = zero /\ cloud (id, 1) = zero /\ cloud (id, 2) = zero.
Proof.
  intros width height cs D0 trace S row column id P E z cloud.
  destruct (C38_one_slot_by_pixel width height cs D0) as (_ & Inj & _).
  assert (A : forall s, In s trace -> exists row' column', pixel width height row' column' /\
            In s (cloud_pixel depth positive camera_x camera_y width cs row' column')).
  { intros s I. now apply in_cloud_tasks, (schedule_in _ _ _ S). }
  assert (U : forall s, In s trace -> fst (st_at s) = id ->
            In s (cloud_pixel depth positive camera_x camera_y width cs row column)).
  { intros s I F. destruct (A s I) as (row' & column' & P' & I').
    destruct (C38_one_slot_by_pixel width height cs D0) as (D & _ & _).
    destruct (D row' column' P') as (id' & E' & _).
    assert (id' = id) as ->.
    { rewrite <- F. unfold cloud_pixel, slot in I'. rewrite E' in I'.
      destruct (positive (depth row' column')); [|easy]. destruct I' as [<-|[<-|[<-|[]]]]; reflexivity. }
    destruct (Inj row' column' row column P' P ltac:(congruence)) as [-> ->]. easy. }
  assert (X : forall s, In s (cloud_pixel depth positive camera_x camera_y width cs row column) -> In s trace).
  { intros s I. apply (schedule_in _ _ _ S), in_cloud_tasks. now exists row, column. }
  unfold cloud_pixel, slot in U, X. rewrite E in U, X. fold z in U, X. destruct (positive z) eqn:Z0.
  - assert (G : forall k v, In (mkStore (id, k) v) [mkStore (id, 0) (camera_x column row z); mkStore (id, 1) (camera_y column row z); mkStore (id, 2) z] ->
        cloud (id, k) = v).
    { intros k v I. apply (execute_one V zero trace (mkStore (id, k) v)); [now apply X|].
      intros s' I' A'. cbn in A'. specialize (U s' I' ltac:(now rewrite A')).
      destruct U as [<-|[<-|[<-|[]]]]; cbn in A'; injection A' as <-;
        destruct I as [I|[I|[I|[]]]]; inversion I; reflexivity. }
    split; [|split]; apply G; cbn; auto.
  - assert (G : forall k, cloud (id, k) = zero).
    { intros k. apply execute_none. intros s I A'. apply (U s I). now rewrite A'. }
    split; [|split]; apply G.
Qed.

(** every store is in the array: [width * height] lines of 3 *)
Theorem C38_stores_in_range :
  forall width height cell_size, divided width height cell_size ->
  forall trace, schedule (tasks width height cell_size) trace ->
  forall s, In s trace -> 0 <= fst (st_at s) < width * height /\ 0 <= snd (st_at s) < 3.
Proof.
  intros width height cs D0 trace S s I.
  apply (schedule_in _ _ _ S), in_cloud_tasks in I. destruct I as (row & column & P & I).
  destruct (C38_one_slot_by_pixel width height cs D0) as (D & _ & _).
  destruct (D row column P) as (id & E & R). unfold cloud_pixel, slot in I. rewrite E in I.
  destruct (positive (depth row column)); [|easy]. destruct I as [<-|[<-|[<-|[]]]]; cbn; lia.
Qed.
End Cloud.
Print Assumptions C38_same_cloud_for_every_schedule.
Print Assumptions C38_stores_in_range.

(** the depth image of the documentation: 640 x 480 with cells of 20 pixels *)
Example C38_hypotheses : divided 640 480 20.
Proof. unfold divided. do 3 (split; [lia|]). split; [now exists 32|]. split; [now exists 24|]. reflexivity. Qed.
Example C38_example : cell_map 640 20 25 47 = Done ((32 + 2) * 400 + 107) /\
  (forall id, cell_map 4 2 1 3 = Done id -> id = 7) /\
  schedule (cloud_tasks (fun r c => r + c) (fun z => 0 <? z) (fun c r z => c * z) (fun c r z => r * z) 2 2 2)
    [mkStore (2, 0) 0; mkStore (1, 0) 1; mkStore (2, 1) 1; mkStore (1, 1) 0; mkStore (1, 2) 1; mkStore (2, 2) 1; mkStore (3, 0) 2; mkStore (3, 1) 2; mkStore (3, 2) 2].
Proof.
  split; [reflexivity|]. split; [intros id E; now injection E as <-|].
  set (t := cloud_tasks _ _ _ _ _ _ _). vm_compute in t. subst t.
  apply (schedule_step [_] _ _ []). apply (schedule_step [] _ _ [_]). apply (schedule_step [_] _ _ []).
  apply (schedule_step [] _ _ [_]). apply (schedule_step [] _ _ [_]). apply (schedule_step [[]] _ _ []).
  apply (schedule_step [[]] _ _ []). apply (schedule_step [[]] _ _ []). apply (schedule_step [[]] _ _ []).
  apply schedule_end. cbn. intuition.
Qed.

(** False without the divisibility: two pixels share a slot, and a pixel is out of the array. *)
Theorem C38_any_size_refuted :
  (exists width height cell_size row column row' column',
     0 < cell_size /\ pixel width height row column /\ pixel width height row' column' /\
     (row, column) <> (row', column') /\
     cell_map width cell_size row column = cell_map width cell_size row' column') /\
  (exists width height cell_size row column id,
     0 < cell_size /\ (cell_size | width) /\ pixel width height row column /\
     cell_map width cell_size row column = Done id /\ width * height <= id).
Proof.
  split.
  - exists 5, 4, 2, 0, 4, 2, 0. unfold pixel. repeat split; try lia; discriminate.
  - exists 4, 3, 2, 2, 2, 12. unfold pixel. split; [lia|]. split; [now exists 2|]. repeat split; lia.
Qed.
Print Assumptions C38_any_size_refuted.

(** ** C39 *)

Section Rectify.
Context {V : Type}.
Variable zero : V.
Variable depth : Z -> Z -> V.
Variable positive : V -> bool.
Variable project : Z -> Z -> V -> @projection V.
Notation does := (rectify_pixel depth positive project).
Notation tasks := (rectify_tasks depth positive project).

Lemma in_rectify_tasks : forall width height s,
  (exists t, In t (tasks width height) /\ In s t) <->
  (exists row column, pixel width height row column /\ does width height row column = Stores s).
Proof.
  intros width height s. unfold rectify_tasks. split.
  - intros (t & T & I). apply in_map_iff in T. destruct T as (row & <- & R). apply in_upto in R.
    unfold rectify_row in I. apply in_flat_map in I. destruct I as (column & K & I). apply in_upto in K.
    exists row, column. split; [easy|]. destruct (does width height row column); cbn in I; intuition congruence.
  - intros (row & column & (R & K) & I). exists (rectify_row depth positive project width height row).
    split; [apply in_map, in_upto; easy|]. apply in_flat_map. exists column. split; [now apply in_upto|].
    rewrite I. now left.
Qed.

(** the target of a pixel in the rectified image *)
Definition lands (width height row column r c : Z) (v : V) : Prop :=
  pixel width height row column /\ positive (depth row column) = true /\
  project row column (depth row column) = Projects (Finite c) (Finite r) v /\
  0 < r < height /\ 0 < c < width.

Lemma stores_lands : forall width height row column r c v, width <= 2 ^ 32 -> height <= 2 ^ 32 ->
  pixel width height row column ->
  (does width height row column = Stores (mkStore (r, c) v) <-> lands width height row column r c v).
Proof.
  intros width height row column r c v W H P. unfold rectify_pixel, lands.
  destruct (positive (depth row column)); [|split; [easy|intros (_ & D & _); easy]].
  destruct (project row column (depth row column)) as [|x y v']; [split; [easy|intros (_ & _ & D & _); easy]|].
  destruct x as [x|]; cbn; [|split; [easy|intros (_ & _ & D & _); easy]].
  destruct y as [y|]; cbn; [|destruct ((0 <=? x) && (x <? 4294967296)); (split; [easy|intros (_ & _ & D & _); easy])].
  change (2 ^ 32) with 4294967296 in *. split.
  - intros E. destruct ((0 <=? x) && (x <? 4294967296)); [|easy]. destruct ((0 <=? y) && (y <? 4294967296)); [|easy].
    destruct ((0 <? x) && (0 <? y) && (x <? width) && (y <? height)) eqn:T; [|easy].
    injection E as -> -> ->. split; [easy|]. split; [easy|]. split; [easy|]. lia.
  - intros (_ & _ & E & R & K). injection E as -> -> ->.
    assert ((0 <=? c) && (c <? 4294967296) = true) as -> by lia. assert ((0 <=? r) && (r <? 4294967296) = true) as -> by lia.
    assert ((0 <? c) && (0 <? r) && (c <? width) && (r <? height) = true) as -> by lia. easy.
Qed.

Lemma in_rectify_trace : forall width height trace, width <= 2 ^ 32 -> height <= 2 ^ 32 ->
  schedule (tasks width height) trace ->
  forall r c v, In (mkStore (r, c) v) trace <-> exists row column, lands width height row column r c v.
Proof.
  intros width height trace W H S r c v. rewrite (schedule_in _ _ _ S), in_rectify_tasks. split.
  - intros (row & column & P & D). exists row, column. now apply stores_lands in D.
  - intros (row & column & L). exists row, column. split; [apply L|]. now apply stores_lands; [| |apply L|].
Qed.

(** C39: whatever the schedule, a pixel of the rectified image is null when no depth pixel
    lands on it, and otherwise has the depth of one of those which land on it; *)
Theorem C39_value_of_one_source :
  forall width height trace, width <= 2 ^ 32 -> height <= 2 ^ 32 -> schedule (tasks width height) trace ->
  forall r c,
    ((~ exists row column v, lands width height row column r c v) -> execute zero trace (r, c) = zero) /\
    ((exists row column v, lands width height row column r c v) ->
       exists row column, lands width height row column r c (execute zero trace (r, c))).
Proof.
  intros width height trace W H S r c. split.
  - intros N. apply execute_none. intros [[r' c'] v] I A. cbn in A. injection A as -> ->.
    apply (in_rectify_trace width height trace W H S) in I. destruct I as (row & column & L). apply N. now exists row, column, v.
  - intros (row & column & v & L).
    destruct (execute_some V zero trace (r, c)) as ([[r' c'] v'] & I & A & ->).
    { exists (mkStore (r, c) v). split; [|easy]. apply (in_rectify_trace width height trace W H S). now exists row, column. }
    cbn in A. injection A as -> ->. now apply (in_rectify_trace width height trace W H S) in I.
Qed.

(** so that when no two pixels land on the same target, the result is the same for every
    schedule, and every landed pixel is in it; *)
Theorem C39_same_image_for_every_schedule :
  forall width height, width <= 2 ^ 32 -> height <= 2 ^ 32 ->
  (forall row column row' column' r c v v', lands width height row column r c v -> lands width height row' column' r c v' ->
     (row, column) = (row', column')) ->
  forall trace, schedule (tasks width height) trace ->
    (forall row column r c v, lands width height row column r c v -> execute zero trace (r, c) = v) /\
    (forall trace', schedule (tasks width height) trace' -> forall r c, execute zero trace (r, c) = execute zero trace' (r, c)).
Proof.
  intros width height W H U.
  assert (G : forall trace, schedule (tasks width height) trace -> forall row column r c v,
            lands width height row column r c v -> execute zero trace (r, c) = v).
  { intros trace S row column r c v L.
    destruct (C39_value_of_one_source width height trace W H S r c) as [_ B].
    destruct B as (row' & column' & L'); [now exists row, column, v|].
    pose proof (U _ _ _ _ _ _ _ _ L L') as E. injection E as <- <-.
    destruct L as (_ & _ & E & _), L' as (_ & _ & E' & _). congruence. }
  intros trace S. split; [now apply G|]. intros trace' S' r c.
  assert (D : (exists s, In s trace /\ st_at s = (r, c)) \/ (forall s, In s trace -> st_at s <> (r, c))).
  { clear. induction trace as [|s trace [IH|IH]].
    - now right.
    - left. destruct IH as (s' & I & E). exists s'. split; [now right|easy].
    - destruct (at_dec (st_at s) (r, c)) as [E|E].
      + left. exists s. split; [now left|easy].
      + right. intros s' [<-|I]; [easy|now apply IH]. }
  destruct D as [([[r' c'] v] & I & E)|N].
  - cbn in E. injection E as -> ->. apply (in_rectify_trace width height trace W H S) in I. destruct I as (row & column & L).
    now rewrite (G trace S _ _ _ _ _ L), (G trace' S' _ _ _ _ _ L).
  - assert (M : ~ exists row column v, lands width height row column r c v).
    { intros (row & column & v & L). apply (N (mkStore (r, c) v)); [|easy].
      apply (in_rectify_trace width height trace W H S). now exists row, column. }
    destruct (C39_value_of_one_source width height trace W H S r c) as [A _].
    destruct (C39_value_of_one_source width height trace' W H S' r c) as [A' _]. now rewrite A, A'.
Qed.

(** the first row and the first column of the result are always null. *)
Theorem C39_first_row_and_column_null :
  forall width height trace, width <= 2 ^ 32 -> height <= 2 ^ 32 -> schedule (tasks width height) trace ->
  forall k, execute zero trace (0, k) = zero /\ execute zero trace (k, 0) = zero.
Proof.
  intros width height trace W H S k. split; apply (C39_value_of_one_source width height trace W H S);
    intros (row & column & v & _ & _ & _ & L); lia.
Qed.

(** The call is well behaved exactly when every depth pixel projects to coordinates that
    fit an unsigned integer: it has an undefined behaviour as soon as one projects above or
    left of the image. *)
Theorem C39_defined_iff_projections_not_negative :
  forall width height,
    (forall row column, pixel width height row column ->
       does width height row column <> Misbehaves /\ does width height row column <> Exits) <->
    (forall row column, pixel width height row column -> positive (depth row column) = true ->
       exists x y v, project row column (depth row column) = Projects (Finite x) (Finite y) v /\
                     0 <= x < 2 ^ 32 /\ 0 <= y < 2 ^ 32).
Proof.
  intros width height. split.
  - intros D row column P Z0. specialize (D row column P). unfold rectify_pixel in D. rewrite Z0 in D.
    destruct (project row column (depth row column)) as [|[x|] [y|] v]; cbn in D.
    + now destruct D.
    + exists x, y, v. split; [easy|]. change (2 ^ 32) with 4294967296.
      destruct ((0 <=? x) && (x <? 4294967296)) eqn:X; [|now destruct D].
      destruct ((0 <=? y) && (y <? 4294967296)) eqn:Y; [|now destruct D]. lia.
    + destruct ((0 <=? x) && (x <? 4294967296)); now destruct D.
    + now destruct D.
    + now destruct D.
  - intros D row column P. unfold rectify_pixel. destruct (positive (depth row column)) eqn:Z0; [|easy].
    destruct (D row column P Z0) as (x & y & v & -> & X & Y). cbn. change (2 ^ 32) with 4294967296 in *.
    assert ((0 <=? x) && (x <? 4294967296) = true) as -> by lia. assert ((0 <=? y) && (y <? 4294967296) = true) as -> by lia.
    now destruct ((0 <? x) && (0 <? y) && (x <? width) && (y <? height)).
Qed.
End Rectify.
Print Assumptions C39_value_of_one_source.
Print Assumptions C39_same_image_for_every_schedule.
Print Assumptions C39_first_row_and_column_null.
Print Assumptions C39_defined_iff_projections_not_negative.

(** two cameras with the same unit focal length and optical center (2, 2), the second at
    distance [t] on the left of the first; depths are rationals *)
Definition stereo (t : Q) (row column : Z) (z : Q) : @projection Q :=
  let x := (inject_Z (column - 2) * z - t)%Q in
  Projects (Finite (Qfloor (x / z + 2))) (Finite row) z.
Definition positive_depth (z : Q) : bool := negb (Qle_bool z 0).
(** a wall at depth 2 with a post at depth 1 in front of it *)
Definition wall (row column : Z) : Q := if column =? 3 then 1%Q else 2%Q.

Example C39_example :
  forall trace, schedule (rectify_tasks wall positive_depth (stereo 0) 4 4) trace ->
    execute 0%Q trace (2, 3) = 1%Q /\ execute 0%Q trace (2, 2) = 2%Q /\ execute 0%Q trace (0, 2) = 0%Q.
Proof.
  intros trace S.
  assert (I : forall row column r c v, lands wall positive_depth (stereo 0) 4 4 row column r c v -> row = r /\ column = c).
  { intros row column r c v ((R & K) & _ & E & _). unfold stereo in E. injection E as Ec Er Ev.
    split; [easy|]. subst c.
    assert (K' : column = 0 \/ column = 1 \/ column = 2 \/ column = 3) by lia.
    destruct K' as [->|[->|[->| ->]]]; reflexivity. }
  destruct (C39_same_image_for_every_schedule 0%Q wall positive_depth (stereo 0) 4 4 ltac:(easy) ltac:(easy)) with (trace := trace) as [A _]; [|easy|].
  { intros row column row' column' r c v v' L L'. apply I in L, L'. f_equal; lia. }
  split; [|split].
  - apply (A 2 3 2 3). unfold lands, pixel. split; [lia|]. split; [easy|]. split; [reflexivity|lia].
  - apply (A 2 2 2 2). unfold lands, pixel. split; [lia|]. split; [easy|]. split; [reflexivity|lia].
  - now apply (C39_first_row_and_column_null 0%Q wall positive_depth (stereo 0) 4 4 trace).
Qed.

(** False when two pixels land on the same target: here two rows land on the same pixel, the
    result depends on the schedule, and the furthest of the two may be kept. *)
Theorem C39_one_result_refuted :
  exists (depth : Z -> Z -> Q) project width height trace trace' r c,
    schedule (rectify_tasks depth positive_depth project width height) trace /\
    schedule (rectify_tasks depth positive_depth project width height) trace' /\
    (forall row column, pixel width height row column ->
       rectify_pixel depth positive_depth project width height row column <> Misbehaves /\
       rectify_pixel depth positive_depth project width height row column <> Exits) /\
    ~ (execute 0%Q trace (r, c) == execute 0%Q trace' (r, c))%Q /\
    lands depth positive_depth project width height 0 1 r c (execute 0%Q trace (r, c)) /\
    lands depth positive_depth project width height 1 1 r c (execute 0%Q trace' (r, c)) /\
    (execute 0%Q trace (r, c) < execute 0%Q trace' (r, c))%Q.
Proof.
  set (depth := fun row column : Z => if column =? 1 then (if row =? 0 then 1 else 2)%Q else 0%Q).
  set (project := fun (row column : Z) (z : Q) => Projects (Finite column) (Finite (Qfloor (inject_Z row + 1 / z))) z).
  exists depth, project, 2, 2, [mkStore (1, 1) 2%Q; mkStore (1, 1) 1%Q], [mkStore (1, 1) 1%Q; mkStore (1, 1) 2%Q], 1, 1.
  assert (T : rectify_tasks depth positive_depth project 2 2 = [[mkStore (1, 1) 1%Q]; [mkStore (1, 1) 2%Q]]) by reflexivity.
  rewrite T.
  split; [apply (schedule_step [_] _ _ []), (schedule_step [] _ _ [_]), schedule_end; cbn; intuition|].
  split; [apply (schedule_step [] _ _ [_]), (schedule_step [_] _ _ []), schedule_end; cbn; intuition|].
  split.
  { intros row column ((R & R') & (K & K')). assert (E : row = 0 \/ row = 1) by lia. assert (F : column = 0 \/ column = 1) by lia.
    destruct E as [->| ->], F as [->| ->]; split; vm_compute; discriminate. }
  split; [vm_compute; discriminate|].
  split; [unfold lands, pixel; split; [lia|]; split; [easy|]; split; [reflexivity|lia]|].
  split; [unfold lands, pixel; split; [lia|]; split; [easy|]; split; [reflexivity|lia]|]. reflexivity.
Qed.
Print Assumptions C39_one_result_refuted.

(** with two cameras side by side, a pixel of the border is out of the image of the first
    camera: undefined behaviour *)
Theorem C39_always_defined_refuted :
  exists row column, pixel 4 4 row column /\
    rectify_pixel wall positive_depth (stereo (1 # 2)) 4 4 row column = Misbehaves.
Proof. exists 1, 0. split; [unfold pixel; lia|reflexivity]. Qed.
Print Assumptions C39_always_defined_refuted.
