(** Properties C27 - C33, C58, C59: plane extraction. See PrimitiveSpec.v for the words. *)
From Coq Require Import ZifyBool ZifyNat Permutation Reals.
From Verif Require Import PrimitiveModel PrimitiveSpec PrimitiveProofs PrimitiveGrow PrimitiveMerge HistogramBins.
Import ListNotations.
Local Open Scope nat_scope.

(** ** C27 — cells removed from the histogram *)

Definition valid_bins (n : nat) (mask : nat -> bool) (bin : nat -> nat) : Prop :=
  forall i, i < n -> mask i = true -> bin i < hist_size.

(** counters of the bins other than 1 *)
Definition exact_bins (h : histogram) : Prop := forall b, b <> 1 -> h_count h b = cells_in h b.
Definition ranged (n : nat) (mask : nat -> bool) (h : histogram) : Prop :=
  h_n h = n /\ forall i, i < n -> mask i = true -> (0 <= h_bins h i < Z.of_nat hist_size)%Z.

Lemma init_facts n mask bin h :
  valid_bins n mask bin -> init_histogram n mask bin = Ret h ->
  ranged n mask h /\ (forall b, h_count h b = cells_in h b) /\
  (forall i, i < n -> h_bins h i = if mask i then Z.of_nat (bin i) else (-1)%Z).
Proof.
  intros B E. destruct (init_spec n mask bin B) as (h' & E' & N & Bi & C). rewrite E in E'. injection E' as <-.
  assert (Bi' : forall i, i < n -> h_bins h i = if mask i then Z.of_nat (bin i) else (-1)%Z).
  { intros i L. rewrite Bi. destruct (Nat.ltb_spec i n); [reflexivity|lia]. }
  split; [|split; auto].
  - split; auto. intros i L M. rewrite Bi', M by auto. specialize (B i L M). lia.
  - intros b. rewrite C. unfold cells_in. rewrite N. apply count_ext. intros i L. rewrite Bi' by auto. destruct (mask i); cbn [andb]; [|lia].
    destruct (Nat.eqb_spec (bin i) b), (Z.eqb_spec (Z.of_nat (bin i)) (Z.of_nat b)); lia || reflexivity.
Qed.

Lemma remove_facts n mask p h h' :
  ranged n mask h -> exact_bins h -> p < n -> mask p = true -> remove_point p h = Ret h' ->
  ranged n mask h' /\ exact_bins h' /\ (forall i, h_bins h' i = if Nat.eqb i p then 1%Z else h_bins h i).
Proof.
  intros [N R] X L M E. destruct (remove_point_spec p h) as (h1 & E1 & N1 & B1 & C1); [lia|auto|]. rewrite E in E1. injection E1 as <-.
  split; [|split; auto].
  - split; [lia|]. intros i Li Mi. rewrite B1. destruct (Nat.eqb i p); [unfold hist_size, hist_side; lia|auto].
  - intros b Nb. rewrite C1. unfold cells_in. rewrite N1. assert (Xb := X b Nb). unfold cells_in in Xb. specialize (R p L M).
    destruct (Nat.eqb_spec b (Z.to_nat (h_bins h p))) as [Eb|Eb].
    + rewrite Xb. rewrite (count_flip (fun i => (h_bins h i =? Z.of_nat b)%Z) (fun i => (h_bins h' i =? Z.of_nat b)%Z) (h_n h) p); [reflexivity| | | |].
      * lia.
      * apply Z.eqb_eq. lia.
      * rewrite B1, Nat.eqb_refl. apply Z.eqb_neq. lia.
      * intros i Li Ni. rewrite B1. destruct (Nat.eqb_spec i p); [contradiction|reflexivity].
    + rewrite Xb. apply count_ext. intros i Li. rewrite B1. destruct (Nat.eqb_spec i p) as [->|]; [|reflexivity].
      destruct (Z.eqb_spec (h_bins h p) (Z.of_nat b)), (Z.eqb_spec 1 (Z.of_nat b)); lia || reflexivity.
Qed.
Lemma removals_facts n mask ps : forall h h',
  ranged n mask h -> exact_bins h -> (forall p, In p ps -> p < n /\ mask p = true) -> remove_points ps h = Ret h' ->
  ranged n mask h' /\ exact_bins h' /\ (forall i, In i ps -> h_bins h' i = 1%Z) /\ (forall i, ~ In i ps -> h_bins h' i = h_bins h i).
Proof.
  induction ps as [|p ps IH]; intros h h' R X P; cbn [remove_points].
  - intros [= <-]. split; [exact R|]. split; [exact X|]. split; [intros i []|auto].
  - destruct (P p (or_introl eq_refl)) as [L M]. destruct (remove_point p h) as [h1| |] eqn:E; cbn [bind]; try discriminate. intros E'.
    destruct (remove_facts n mask p h h1 R X L M E) as (R1 & X1 & B1).
    destruct (IH h1 h' R1 X1 (fun q Q => P q (or_intror Q)) E') as (R2 & X2 & B2 & B3). split; auto. split; auto. split.
    + intros i [<-|I]; [|auto]. destruct (in_dec Nat.eq_dec p ps) as [J|J]; [auto|]. rewrite B3, B1, Nat.eqb_refl; auto.
    + intros i I. cbn in I. rewrite B3, B1 by tauto. destruct (Nat.eqb_spec i p); [subst; tauto|reflexivity].
Qed.
Lemma removals_run n mask ps : forall h, ranged n mask h -> (forall p, In p ps -> p < n /\ mask p = true) -> exists h', remove_points ps h = Ret h'.
Proof.
  induction ps as [|p ps IH]; intros h [N R] P; [now exists h|]. cbn [remove_points].
  destruct (P p (or_introl eq_refl)) as [L M]. destruct (remove_point_spec p h) as (h1 & E1 & N1 & B1 & _); [lia|auto|].
  rewrite E1. cbn [bind]. apply IH; [|intros q Q; apply P; now right]. split; [lia|].
  intros i Li Mi. rewrite B1. destruct (Nat.eqb i p); [unfold hist_size, hist_side; lia|auto].
Qed.

(** After any removals of cells of the histogram (which never fail), a removed cell
    is proposed only if the most frequent bin is the bin 1, and a cell
    that is proposed while it is not removed is in its bin. *)
Theorem C27_removed_cell_proposed_only_from_bin_one :
  forall n mask bin ps h,
  valid_bins n mask bin -> (forall p, In p ps -> p < n /\ mask p = true) -> init_histogram n mask bin = Ret h ->
  exists h', remove_points ps h = Ret h' /\
    forall p, In p (best_points h') -> (In p ps -> most_frequent h' = 1%Z) /\ (~ In p ps -> mask p = true /\ most_frequent h' = Z.of_nat (bin p)).
Proof.
  intros n mask bin ps h B P E. destruct (init_facts n mask bin h B E) as (R & X & Bi).
  destruct (removals_run n mask ps h R P) as [h' E']. exists h'. split; auto.
  destruct (removals_facts n mask ps h h' R (fun b _ => X b) P E') as ([N' R'] & X' & B1 & B2).
  intros p I. destruct (best_points_spec h') as [[Eb _]|(b & Mb & _ & _ & _ & Eb)]; rewrite Eb in I; [contradiction|].
  apply filter_In in I as [L Eq]. apply Z.eqb_eq in Eq. apply in_seq in L. split; intros K.
  - rewrite Mb, <- Eq. auto.
  - rewrite B2, Bi in Eq by (auto; lia). rewrite Mb. destruct (mask p); [split; congruence|lia].
Qed.
Print Assumptions C27_removed_cell_proposed_only_from_bin_one.

(** A removed cell is proposed again. *)
Theorem C27_removed_cell_not_proposed_refuted :
  exists n mask bin p h h', valid_bins n mask bin /\ mask p = true /\ init_histogram n mask bin = Ret h /\
    remove_points [p] h = Ret h' /\ In p (best_points h').
Proof.
  exists 2, (fun _ => true), (fun _ => 1), 0. eexists. eexists.
  split; [intros i _ _; apply Nat.ltb_lt; reflexivity|]. split; [reflexivity|]. split; [reflexivity|]. split; [reflexivity|].
  vm_compute. auto.
Qed.
Print Assumptions C27_removed_cell_not_proposed_refuted.
Example C27_example : valid_bins 4 (fun i => Nat.ltb i 3) (fun i => 20 * i) /\
  match init_histogram 4 (fun i => Nat.ltb i 3) (fun i => 20 * (i mod 2)) with
  | Ret h => best_points h = [0; 2] /\ match remove_points [0; 2] h with Ret h' => best_points h' = [1] | _ => False end
  | _ => False end.
Proof.
  split; [|vm_compute; auto]. intros i L M. unfold hist_size, hist_side. destruct i as [|[|[|i]]]; cbn in M |- *; try lia; discriminate.
Qed.

(** ** C28 — counters *)

(** After the initialisation each counter is the number of cells put in the bin and
    the bins are those given. *)
Theorem C28_counters_after_init :
  forall n mask bin, valid_bins n mask bin ->
  exists h, init_histogram n mask bin = Ret h /\ h_n h = n /\
    (forall i, i < n -> h_bins h i = if mask i then Z.of_nat (bin i) else (-1)%Z) /\
    (forall b, h_count h b = length (filter (fun i => (h_bins h i =? Z.of_nat b)%Z) (seq 0 n))).
Proof.
  intros n mask bin B. destruct (init_spec n mask bin B) as (h & E & N & _). exists h. split; auto. split; auto.
  destruct (init_facts n mask bin h B E) as (_ & X & Bi). split; auto. intros b. rewrite X. unfold cells_in, count_if. now rewrite N.
Qed.
Print Assumptions C28_counters_after_init.
(** A bin out of range is a write outside of the counters. *)
Theorem C28_needs_valid_bins :
  forall n mask bin, ~ valid_bins n mask bin <-> init_histogram n mask bin = Undef.
Proof.
  intros n mask bin. split.
  - intros N. assert (D := init_loop_spec mask bin (seq 0 n) (mkHist (fun _ => 0) (fun _ => (-1)%Z) n) (seq_NoDup _ _)).
    unfold init_histogram. destruct (init_loop _ _ _ _) as [h| |]; [|reflexivity|contradiction].
    destruct N. intros i L M. destruct D as (_ & _ & _ & D). apply D; auto. apply in_seq. lia.
  - intros E B. destruct (init_spec n mask bin B) as (h & E' & _). congruence.
Qed.
Print Assumptions C28_needs_valid_bins.
(** In binary64, the bin computed from angles in the ranges of [acos] and [atan2] is
    in range. *)
Theorem C28_bin_in_range :
  forall theta phi : dbl, BinarySingleNaN.is_finite theta = true -> BinarySingleNaN.is_finite phi = true ->
  (0 <= BinarySingleNaN.B2R theta <= BinarySingleNaN.B2R dpi)%R ->
  (- BinarySingleNaN.B2R dpi <= BinarySingleNaN.B2R phi <= BinarySingleNaN.B2R dpi)%R ->
  (0 <= bin_of theta phi < Z.of_nat hist_size)%Z.
Proof. exact bin_of_in_range. Qed.
Print Assumptions C28_bin_in_range.
(** The candidates are the cells of a bin with the maximal counter, if there is a
    counter that is not zero. *)
Theorem C28_most_frequent :
  forall h,
  (best_points h = [] /\ forall b, b < hist_size -> h_count h b = 0) \/
  (exists b, b < hist_size /\ 0 < h_count h b /\ (forall b', b' < hist_size -> h_count h b' <= h_count h b) /\
     forall i, In i (best_points h) <-> i < h_n h /\ h_bins h i = Z.of_nat b).
Proof.
  intros h. destruct (best_points_spec h) as [K|(b & _ & L & P & M & E)]; [auto|]. right. exists b. repeat split; auto.
  - rewrite E in H. apply filter_In in H as [I _]. apply in_seq in I. lia.
  - rewrite E in H. apply filter_In in H as [_ I]. now apply Z.eqb_eq.
  - intros [I J]. rewrite E. apply filter_In. split; [apply in_seq; lia|now apply Z.eqb_eq].
Qed.
Print Assumptions C28_most_frequent.
(** After any removals the counters of all bins but the bin 1 are still exact. *)
Theorem C28_counters_after_removals :
  forall n mask bin ps h h', valid_bins n mask bin -> (forall p, In p ps -> p < n /\ mask p = true) ->
  init_histogram n mask bin = Ret h -> remove_points ps h = Ret h' ->
  forall b, b <> 1 -> h_count h' b = length (filter (fun i => mask i && Nat.eqb (bin i) b && negb (existsb (Nat.eqb i) ps)) (seq 0 n)).
Proof.
  intros n mask bin ps h h' B P E E'. destruct (init_facts n mask bin h B E) as (R & X & Bi).
  destruct (removals_facts n mask ps h h' R (fun b _ => X b) P E') as ([N' R'] & X' & B1 & B2).
  intros b Nb. rewrite X' by auto. unfold cells_in. rewrite N'. apply (count_ext _ _ n). intros i L.
  destruct (existsb (Nat.eqb i) ps) eqn:I.
  - apply existsb_eqb in I. rewrite B1 by auto. rewrite andb_false_r. apply Z.eqb_neq. lia.
  - rewrite andb_true_r, B2, Bi; auto; [|intros J; apply existsb_eqb in J; congruence].
    destruct (mask i); cbn [andb]; [|lia]. destruct (Nat.eqb_spec (bin i) b), (Z.eqb_spec (Z.of_nat (bin i)) (Z.of_nat b)); lia || reflexivity.
Qed.
Print Assumptions C28_counters_after_removals.
(** The counter of the bin 1 is not: removing twice the same cell, as done for a
    seed whose region is too small, removes another cell of the bin 1. *)
Theorem C28_bin_one_counter_refuted :
  exists n mask bin p h h', valid_bins n mask bin /\ mask p = true /\ bin p <> 1 /\ init_histogram n mask bin = Ret h /\
    remove_points [p; p] h = Ret h' /\ h_count h' 1 = 0 /\ exists q, q <> p /\ mask q = true /\ bin q = 1 /\ h_bins h' q = 1%Z.
Proof.
  exists 2, (fun _ => true), (fun i => i), 0. eexists. eexists.
  split; [intros i L _; unfold hist_size, hist_side; lia|]. split; [reflexivity|]. split; [lia|]. split; [reflexivity|]. split; [reflexivity|].
  split; [reflexivity|]. exists 1. repeat split; lia.
Qed.
Print Assumptions C28_bin_one_counter_refuted.
Example C28_example : valid_bins 3 (fun _ => true) (fun i => 100 * i) /\
  match init_histogram 3 (fun _ => true) (fun i => 7 * i) with Ret h => h_count h 7 = 1 | _ => False end.
Proof. split; [intros i L _; unfold hist_size, hist_side; lia|reflexivity]. Qed.

(** ** C29, C31, C58 — growth *)
Section Growth.
Variables H V : nat.
Variable planar : nat -> bool.
Variable mse : nat -> dbl.
Variable can_merge : nat -> nat -> bool.
Variables min_seeds min_cells : nat.
Variable fit_ok score_high : list nat -> bool.
Variable cylinder_fit : list nat -> list (list nat).
Variable plane_better : list nat -> list nat -> bool.
Variable bin : nat -> nat.
Notation total := (PrimitiveModel.total H V).
Notation turn := (PrimitiveModel.turn H V planar mse can_merge min_seeds min_cells fit_ok score_high cylinder_fit plane_better).
Notation extract := (PrimitiveModel.extract H V planar mse can_merge min_seeds min_cells fit_ok score_high cylinder_fit plane_better bin).

(** what is assumed of the grid and of the oracles: the number of cells is an unsigned 32
    bits integer, the bins are in range (C28), the groups of the cylinder fit are
    disjoint sets of the given cells (C36) *)
Definition growth_hyps : Prop :=
  (Z.of_nat total < 2 ^ 32)%Z /\ (forall i, i < total -> planar i = true -> bin i < hist_size) /\
  (forall act, NoDup act -> disjoint_groups act (cylinder_fit act)).

(** states of the loop *)
Inductive reachable : gstate -> Prop :=
| reach_init g : g_init H V planar bin = Ret g -> reachable g
| reach_turn g g' : reachable g -> turn g = Ret (Some g') -> reachable g'.

Lemma reachable_inv g : growth_hyps -> reachable g -> Inv H V planar g.
Proof.
  intros (S & B & G) R. induction R as [g E|g g' R IH E].
  - destruct (g_init_ok H V planar mse can_merge min_seeds bin S B) as (g1 & E1 & I & _). congruence.
  - destruct (turn_ok H V planar mse can_merge min_seeds min_cells fit_ok score_high cylinder_fit plane_better bin S G g IH) as [K|(g1 & E1 & I & _)]; congruence.
Qed.

(** The loop ends, without undefined behaviour, after at most as many turns as
    there are planar cells. *)
Theorem C29_terminates :
  growth_hyps ->
  exists g, extract (S (count_if planar total)) = Ret g /\ reachable g /\ turn g = Ret None.
Proof.
  intros Hy. assert (Hy' := Hy). destruct Hy as (S & B & G).
  destruct (g_init_ok H V planar mse can_merge min_seeds bin S B) as (g0 & E0 & I0 & H0 & _). unfold PrimitiveModel.extract. rewrite E0. cbn [bind].
  assert (R0 := reach_init g0 E0).
  assert (L : forall fuel g, reachable g -> hsum (g_hist g) < fuel ->
    exists g', grow H V planar mse can_merge min_seeds min_cells fit_ok score_high cylinder_fit plane_better fuel g = Ret g' /\ reachable g' /\ turn g' = Ret None).
  { induction fuel as [|fuel IH]; intros g R L; [lia|]. cbn [grow].
    destruct (turn_ok H V planar mse can_merge min_seeds min_cells fit_ok score_high cylinder_fit plane_better bin S G g (reachable_inv g Hy' R)) as [T|(g1 & T & _ & _ & D)].
    - rewrite T. cbn [bind]. exists g. auto.
    - rewrite T. cbn [bind]. apply IH; [now apply reach_turn with g|lia]. }
  apply L; auto. lia.
Qed.
(** More turns change nothing. *)
Theorem C29_result_unique :
  forall fuel fuel' g g', extract fuel = Ret g -> extract fuel' = Ret g' -> g = g'.
Proof.
  intros fuel fuel' g g'. unfold PrimitiveModel.extract. destruct (g_init H V planar bin) as [g0| |]; try discriminate. cbn [bind].
  revert fuel' g0. induction fuel as [|fuel IH]; intros fuel' g0; cbn [grow]; [discriminate|].
  destruct fuel' as [|fuel']; [discriminate|]. cbn [grow]. destruct (turn g0) as [[g1|]| |]; cbn [bind]; try discriminate.
  - apply IH.
  - congruence.
Qed.

(** In every state of the loop: the label of a cell is 0 or the number of a plane,
    the cells of a plane are exactly the cells with its number, a cell is not both in a
    plane and in a cylinder, only planar cells that are not candidates any more
    have a label, and the number of untried cells is the number of these. *)
Theorem C31_one_plane_by_cell :
  growth_hyps -> forall g, reachable g ->
  (forall i, g_label g i <= length (g_planes g)) /\
  (forall k cells, nth_error (g_planes g) k = Some cells -> forall i, In i cells <-> i < total /\ g_label g i = S k) /\
  (forall i, i < total -> g_label g i <> 0 \/ g_cylinder_label g i <> 0 -> g_free g i = false) /\
  (forall i, i < total -> g_label g i = 0 \/ g_cylinder_label g i = 0) /\
  (forall i, g_cylinder_label g i <= length (g_map g)) /\
  Forall (fun p => fst p < g_cylinders g) (g_map g) /\
  g_untried g = Z.of_nat (count_if (g_free g) total) /\
  (forall i, g_free g i = true -> i < total /\ planar i = true).
Proof.
  intros Hy g R. destruct (reachable_inv g Hy R) as [I1 I2 I3 [L1 L2 L3 L4 L5 L6 L7 L8]].
  split; [exact L5|]. split; [exact L4|]. split; [intros i L [X|X]; auto|].
  split; [intros i L; destruct (Nat.eq_dec (g_label g i) 0); auto|]. auto.
Qed.
(** A turn changes no label that is set, forgets no plane, and frees no cell. *)
Theorem C31_labels_kept :
  growth_hyps -> forall g g', reachable g -> turn g = Ret (Some g') ->
  (forall i, i < total -> g_label g i <> 0 -> g_label g' i = g_label g i) /\
  (forall i, i < total -> g_cylinder_label g i <> 0 -> g_cylinder_label g' i = g_cylinder_label g i) /\
  (exists l, g_planes g' = g_planes g ++ l) /\ (exists l, g_map g' = g_map g ++ l) /\
  (forall i, g_free g' i = true -> g_free g i = true).
Proof.
  intros Hy g g' R T. assert (I := reachable_inv g Hy R). destruct Hy as (S & B & G).
  destruct (turn_ok H V planar mse can_merge min_seeds min_cells fit_ok score_high cylinder_fit plane_better bin S G g I) as [K|(g1 & E1 & _ & [K1 K2 K3 K4 K5] & _)]; [congruence|].
  assert (g1 = g') by congruence. subst g1. auto.
Qed.

(** Each part of a cylinder found in a turn is a new plane, or an entry of the map of cylinders
    with the number of this cylinder and its own number of part; its cells have its label. *)
Lemma add_part_frame act k group g :
  let g' := add_part planar plane_better act k group g in
  g_cylinders g' = g_cylinders g /\
  (forall n x, nth_error (g_planes g) n = Some x -> nth_error (g_planes g') n = Some x) /\
  (forall n x, nth_error (g_map g) n = Some x -> nth_error (g_map g') n = Some x) /\
  length (g_planes g) <= length (g_planes g') /\ length (g_map g) <= length (g_map g') /\
  (forall i, ~ In i group -> g_label g' i = g_label g i /\ g_cylinder_label g' i = g_cylinder_label g i).
Proof.
  assert (S : forall f v i, ~ In i group -> set_labels f group v i = f i).
  { intros f v i N. unfold set_labels. destruct (existsb (Nat.eqb i) group) eqn:B; [|reflexivity]. apply existsb_eqb in B. contradiction. }
  unfold add_part. destruct (Nat.eqb _ 0); [cbn zeta; repeat split; auto|].
  destruct (plane_better _ _); cbn zeta; cbn [g_label g_cylinder_label g_free g_planes g_map g_cylinders]; rewrite ?app_length; cbn [length];
    repeat split; auto; try lia; try (intros n x E; rewrite nth_error_app1; auto; apply nth_error_Some; congruence).
Qed.
Lemma add_parts_frame act groups : forall k g,
  let g' := add_parts planar plane_better act k groups g in
  g_cylinders g' = g_cylinders g /\
  (forall n x, nth_error (g_planes g) n = Some x -> nth_error (g_planes g') n = Some x) /\
  (forall n x, nth_error (g_map g) n = Some x -> nth_error (g_map g') n = Some x) /\
  length (g_planes g) <= length (g_planes g') /\ length (g_map g) <= length (g_map g') /\
  (forall i, (forall group, In group groups -> ~ In i group) -> g_label g' i = g_label g i /\ g_cylinder_label g' i = g_cylinder_label g i).
Proof.
  induction groups as [|group groups IH]; intros k g; cbn [add_parts]; [cbn zeta; repeat split; auto|].
  destruct (IH (S k) (add_part planar plane_better act k group g)) as (A & B & C & D & E & F).
  destruct (add_part_frame act k group g) as (A' & B' & C' & D' & E' & F'). cbn zeta.
  split; [congruence|]. split; [auto|]. split; [auto|]. split; [lia|]. split; [lia|].
  intros i N. destruct (F i) as [-> ->]; [intros; apply N; now right|]. apply F'. apply N. now left.
Qed.
Theorem C31_start : forall g, g_init H V planar bin = Ret g ->
  g_planes g = [] /\ g_cylinders g = 0 /\ g_map g = [] /\ forall i, g_label g i = 0 /\ g_cylinder_label g i = 0.
Proof.
  intros g. unfold g_init. destruct (init_histogram _ _ _) as [h| |]; cbn [bind]; try discriminate.
  intros E. injection E as <-. cbn. auto.
Qed.
Theorem C31_parts : growth_hyps -> forall active g,
  (forall i, i < total -> active i = true -> planar i = true) ->
  let act := filter active (seq 0 total) in
  let g' := cylinder_fitting H V planar cylinder_fit plane_better active g in
  g_cylinders g' = S (g_cylinders g) /\
  forall k group, nth_error (cylinder_fit act) k = Some group -> group <> [] ->
    if plane_better act group
    then exists n, length (g_planes g) <= n /\ nth_error (g_planes g') n = Some group /\ forall i, In i group -> g_label g' i = S n
    else exists n, length (g_map g) <= n /\ nth_error (g_map g') n = Some (g_cylinders g, k) /\ forall i, In i group -> g_cylinder_label g' i = S n.
Proof.
  intros (_ & _ & G) active g P act. unfold PrimitiveModel.cylinder_fitting. fold act. cbn zeta.
  set (g0 := mkG _ _ _ _ _ _ _ _).
  assert (N : NoDup act) by apply NoDup_filter, seq_NoDup. specialize (G act N). destruct G as [G D].
  assert (Pl : forall i, In i act -> planar i = true).
  { intros i I. apply filter_In in I as [I A]. apply in_seq in I. apply P; [lia|assumption]. }
  assert (Gen : forall groups k0 gs, Forall (fun gr => NoDup gr /\ incl gr act) groups ->
    (forall a b ga gb i, nth_error groups a = Some ga -> nth_error groups b = Some gb -> In i ga -> In i gb -> a = b) ->
    let g' := add_parts planar plane_better act k0 groups gs in
    forall k group, nth_error groups k = Some group -> group <> [] ->
    if plane_better act group
    then exists n, length (g_planes gs) <= n /\ nth_error (g_planes g') n = Some group /\ forall i, In i group -> g_label g' i = S n
    else exists n, length (g_map gs) <= n /\ nth_error (g_map g') n = Some (g_cylinders gs - 1, k0 + k) /\ forall i, In i group -> g_cylinder_label g' i = S n).
  { clear G D g0. induction groups as [|gr groups IH]; intros k0 gs F D g' k group E Ne; [destruct k; discriminate|].
    inversion F as [|? ? [_ Fa] Fb]; subst. unfold g'. cbn [add_parts]. set (g1 := add_part planar plane_better act k0 gr gs).
    destruct (add_part_frame act k0 gr gs) as (A' & _ & _ & D' & E' & _). fold g1 in A', D', E'.
    destruct k as [|k]; cbn [nth_error] in E.
    - injection E as ->. rewrite Nat.add_0_r.
      destruct (add_parts_frame act groups (S k0) g1) as (_ & Bp & Bm & _ & _ & Bl).
      assert (Out : forall i, In i group -> forall gr, In gr groups -> ~ In i gr).
      { intros i I gr Ig I'. apply In_nth_error in Ig as [n Ig]. specialize (D 0 (S n) group gr i eq_refl Ig I I'). discriminate. }
      assert (Fp : filter planar group = group) by (apply filter_all; intros x X; apply Pl, Fa, X).
      assert (Lt : forall f v i, In i group -> set_labels f group v i = v).
      { intros f v i I. unfold set_labels. now rewrite (proj2 (existsb_eqb i group) I). }
      assert (Q : g1 = if plane_better act group then
         mkG (g_hist gs) (g_free gs) (g_untried gs) (set_labels (g_label gs) group (S (length (g_planes gs)))) (g_cylinder_label gs) (g_planes gs ++ [group]) (g_cylinders gs) (g_map gs)
         else mkG (g_hist gs) (g_free gs) (g_untried gs) (g_label gs) (set_labels (g_cylinder_label gs) group (S (length (g_map gs)))) (g_planes gs) (g_cylinders gs) (g_map gs ++ [(g_cylinders gs - 1, k0)])).
      { unfold g1, add_part. rewrite Fp. destruct group; [contradiction|]. reflexivity. }
      clearbody g1. destruct (plane_better act group); subst g1; cbn [g_label g_cylinder_label g_planes g_map g_cylinders] in *.
      + exists (length (g_planes gs)). split; [lia|]. split; [apply Bp; rewrite nth_error_app2, Nat.sub_diag by lia; reflexivity|].
        intros i I. destruct (Bl i (Out i I)) as [-> _]. now apply Lt.
      + exists (length (g_map gs)). split; [lia|]. split; [apply Bm; rewrite nth_error_app2, Nat.sub_diag by lia; reflexivity|].
        intros i I. destruct (Bl i (Out i I)) as [_ ->]. now apply Lt.
    - specialize (IH (S k0) g1 Fb ltac:(intros a b ga gb i X Y Z W; specialize (D (S a) (S b) ga gb i X Y Z W); lia) k group E Ne). cbn zeta in IH.
      rewrite A' in IH. replace (S k0 + k) with (k0 + S k) in IH by lia.
      destruct (plane_better act group); destruct IH as (n & L & R); exists n; (split; [lia|exact R]). }
  destruct (add_parts_frame act (cylinder_fit act) 0 g0) as (A & _). split; [exact A|].
  intros k group E Ne. specialize (Gen (cylinder_fit act) 0 g0 G D k group E Ne). cbn zeta in Gen.
  replace (g_cylinders g0 - 1) with (g_cylinders g) in Gen by (unfold g0; cbn [g_cylinders]; lia). exact Gen.
Qed.

(** The cells accumulated in a plane have no repetition, except that the seed of a
    plane found by growth is there twice. *)
Theorem C58_only_seed_twice :
  growth_hyps -> forall g, reachable g -> forall cells, In cells (g_planes g) ->
  NoDup cells \/ exists s l, cells = s :: l /\ In s l /\ NoDup l.
Proof.
  intros Hy g R cells I. destruct (reachable_inv g Hy R) as [_ _ _ L]. exact (proj1 (Forall_forall _ _) (lab_shape _ _ _ L) cells I).
Qed.
End Growth.
Print Assumptions C29_terminates.
Print Assumptions C29_result_unique.
Print Assumptions C31_one_plane_by_cell.
Print Assumptions C31_labels_kept.
Print Assumptions C31_parts.
Print Assumptions C31_start.
Print Assumptions C58_only_seed_twice.

(** a grid of 2 x 2 planar cells of the same plane *)
Definition ex_planes fuel :=
  extract 2 2 (fun _ => true) (fun _ => done) (fun _ _ => true) 1 1 (fun _ => true) (fun _ => true) (fun _ => []) (fun _ _ => false) (fun _ => 5) fuel.
(** an L of 4 cells with a high score, then a cylinder with two groups *)
Definition ex_groups (l : list nat) : list (list nat) := match l with a :: b :: c :: d :: e :: _ => [[a; b]; [c; d; e]] | _ => [] end.
Definition ex_cylinder fuel :=
  extract 3 4 (fun _ => true) (fun _ => done) (fun a b => Nat.eqb (Nat.div a 6) (Nat.div b 6)) 1 1 (fun _ => true) (fun l => Nat.ltb (nth 0 l 0) 6)
    ex_groups (fun _ l => Nat.eqb (length l) 2) (fun i => 7 + Nat.div i 6) fuel.
Lemma ex_planes_hyps : growth_hyps 2 2 (fun _ => true) (fun _ => []) (fun _ => 5).
Proof.
  split; [reflexivity|]. split; [intros; unfold hist_size, hist_side; lia|].
  intros act _. split; [constructor|]. intros a b ga gb i E. destruct a; discriminate.
Qed.
Example C29_example :
  growth_hyps 2 2 (fun _ => true) (fun _ => []) (fun _ => 5) /\
  match ex_planes 5 with Ret g => g_planes g = [[0; 0; 1; 2; 3]] /\ map (g_label g) (seq 0 4) = [1; 1; 1; 1] | _ => False end.
Proof.
  split; [exact ex_planes_hyps|vm_compute; auto].
Qed.
Example C31_example :
  growth_hyps 3 4 (fun _ => true) ex_groups (fun i => 7 + Nat.div i 6) /\
  match ex_cylinder 13 with
  | Ret g => map (g_label g) (seq 0 12) = [1; 1; 1; 1; 1; 1; 2; 2; 0; 0; 0; 0] /\ map (g_cylinder_label g) (seq 0 12) = [0; 0; 0; 0; 0; 0; 0; 0; 1; 1; 1; 0]
  | _ => False end.
Proof.
  split; [|vm_compute; auto]. split; [reflexivity|]. split.
  - intros i L _. unfold hist_size, hist_side. assert (i / 6 <= i) by (apply Nat.div_le_upper_bound; lia). change (total 3 4) with 12 in L. lia.
  - intros act N. unfold ex_groups. destruct act as [|a [|b [|c [|d [|e l]]]]]; try (split; [constructor|intros x y gx gy i E; destruct x; discriminate]).
    repeat match goal with N : NoDup (_ :: _) |- _ => apply NoDup_cons_iff in N as [? N] end. cbn [In] in *.
    split.
    + constructor; [|constructor; [|constructor]]; (split; [repeat constructor; cbn [In]; intuition congruence|intros i; cbn [In]; tauto]).
    + intros [|[|x]] [|[|y]] gx gy i E F; cbn in E, F; try (destruct x; discriminate); try (destruct y; discriminate); auto;
      injection E as <-; injection F as <-; cbn [In]; intuition congruence.
Qed.
(** the statistics of a plane are not those of its cells: a cell is counted twice *)
Theorem C58_every_cell_once_refuted :
  exists H V planar mse can_merge ms mc fo sh cf pb bin fuel g,
    growth_hyps H V planar cf bin /\ extract H V planar mse can_merge ms mc fo sh cf pb bin fuel = Ret g /\ exists cells, In cells (g_planes g) /\ ~ NoDup cells.
Proof.
  exists 2, 2, (fun _ => true), (fun _ => done), (fun _ _ => true), 1, 1, (fun _ => true), (fun _ => true), (fun _ => []), (fun _ _ => false), (fun _ => 5), 5.
  assert (E : match ex_planes 5 with Ret g => g_planes g = [[0; 0; 1; 2; 3]] | _ => False end) by (vm_compute; reflexivity).
  unfold ex_planes in E. destruct (extract _ _ _ _ _ _ _ _ _ _ _ _ _) as [g| |] eqn:X; try contradiction. exists g.
  split; [exact ex_planes_hyps|]. split; [reflexivity|]. exists [0; 0; 1; 2; 3]. rewrite E. split; [now left|].
  intros N. apply NoDup_cons_iff in N as [N _]. apply N. now left.
Qed.
Print Assumptions C58_every_cell_once_refuted.

(** ** C60 — choice of the seed *)
Lemma dle_R (a b : dbl) : BinarySingleNaN.is_finite a = true -> BinarySingleNaN.is_finite b = true ->
  dle a b = Flocq.Core.Raux.Rle_bool (BinarySingleNaN.B2R a) (BinarySingleNaN.B2R b).
Proof. apply BinarySingleNaN.Bleb_correct. Qed.
Lemma dmax_finite : BinarySingleNaN.is_finite dmax = true.
Proof. vm_compute. reflexivity. Qed.
(** When the errors of the candidates are finite, the seed is a candidate, and no
    candidate has a smaller error unless its error is not positive; if there is no seed
    then all errors are at least the greatest double. *)
Theorem C60_seed_is_minimal :
  forall mse l, (forall c, In c l -> BinarySingleNaN.is_finite (mse c) = true) ->
  let '(s, m) := select_seed mse l 0 dmax in
  (dle dmax m = true /\ forall c, In c l -> dle dmax (mse c) = true) \/
  (In s l /\ m = mse s /\ (dle (mse s) dzero = true \/ forall c, In c l -> dle (mse s) (mse c) = true)).
Proof.
  intros mse l F.
  assert (G : forall l s0 m0, BinarySingleNaN.is_finite m0 = true -> (forall c, In c l -> BinarySingleNaN.is_finite (mse c) = true) ->
    let '(s, m) := select_seed mse l s0 m0 in
    (s = s0 /\ m = m0 /\ forall c, In c l -> dle m0 (mse c) = true) \/
    (In s l /\ m = mse s /\ dle m0 (mse s) = false /\ (dle (mse s) dzero = true \/ forall c, In c l -> dle (mse s) (mse c) = true))).
  { clear l F. induction l as [|c l IH]; intros s0 m0 F0 F; cbn [select_seed]; [left; repeat split; auto; intros c []|].
    assert (Fc := F c (or_introl eq_refl)). assert (Fl : forall q, In q l -> BinarySingleNaN.is_finite (mse q) = true) by (intros q Q; apply F; now right).
    destruct (dle m0 (mse c)) eqn:D.
    - specialize (IH s0 m0 F0 Fl). destruct (select_seed mse l s0 m0) as [s m]. destruct IH as [(-> & -> & K)|(I & -> & N & K)].
      + left. repeat split; auto. intros q [<-|Q]; auto.
      + right. split; [now right|]. split; auto. split; auto. destruct K as [K|K]; [auto|]. right. intros q [<-|Q]; auto.
        rewrite dle_R in * by auto. apply Flocq.Core.Raux.Rle_bool_true.
        destruct (Flocq.Core.Raux.Rle_bool_spec (BinarySingleNaN.B2R m0) (BinarySingleNaN.B2R (mse c))); [|discriminate].
        destruct (Flocq.Core.Raux.Rle_bool_spec (BinarySingleNaN.B2R m0) (BinarySingleNaN.B2R (mse s))); [discriminate|]. Lra.lra.
    - destruct (dle (mse c) dzero) eqn:Z; [right; split; [now left|]; auto|].
      specialize (IH c (mse c) Fc Fl). destruct (select_seed mse l c (mse c)) as [s m]. right. destruct IH as [(-> & -> & K)|(I & -> & N & K)].
      + split; [now left|]. split; auto. split; auto. right. intros q [<-|Q]; auto.
        rewrite dle_R by auto. apply Flocq.Core.Raux.Rle_bool_true. apply Rle_refl.
      + split; [now right|]. split; auto.
        assert (Fs := Fl s I). rewrite dle_R in N, D by auto.
        destruct (Flocq.Core.Raux.Rle_bool_spec (BinarySingleNaN.B2R (mse c)) (BinarySingleNaN.B2R (mse s))); [discriminate|].
        destruct (Flocq.Core.Raux.Rle_bool_spec (BinarySingleNaN.B2R m0) (BinarySingleNaN.B2R (mse c))); [discriminate|].
        split; [rewrite dle_R by auto; apply Flocq.Core.Raux.Rle_bool_false; Lra.lra|].
        destruct K as [K|K]; [auto|]. right. intros q [<-|Q]; auto. rewrite dle_R by auto. apply Flocq.Core.Raux.Rle_bool_true. Lra.lra. }
  specialize (G l 0 dmax dmax_finite F). destruct (select_seed mse l 0 dmax) as [s m]. destruct G as [(-> & -> & K)|(I & -> & N & K)].
  - left. split; [apply dmax_refl|exact K].
  - right. auto.
Qed.
Print Assumptions C60_seed_is_minimal.
Example C60_example : fst (select_seed (fun i => d_of_Z (Z.of_nat (nth i [5; 3; 4; 2; 7] 0))) [0; 1; 2; 3; 4] 0 dmax) = 3.
Proof. vm_compute. reflexivity. Qed.

(** ** C30 — region growing *)
Theorem C30_exactly_reachable :
  forall H V can_merge free seed, seed < H * V ->
  exists a, region H V can_merge (S (H * V)) free (seed mod H) (seed / H) seed (fun _ => false) = Ret a /\
    forall j, a j = true <-> reach H V can_merge free seed j.
Proof. intros H V can_merge free seed L. exact (region_exact H V can_merge free seed L). Qed.
Print Assumptions C30_exactly_reachable.
Theorem C30_inside_and_free :
  forall H V can_merge free seed j, reach H V can_merge free seed j -> j < H * V /\ free j = true.
Proof. intros H V can_merge free seed j R. exact (reach_inside H V can_merge free seed j R). Qed.
Print Assumptions C30_inside_and_free.
(** The recursion started in the middle of a growth, with cells already activated,
    with enough fuel: activated cells stay activated, new ones are free cells of the grid,
    and all cells that can be entered from a new one are activated. *)
Theorem C30_from_any_state :
  forall H V can_merge free x y from active fuel, x < H -> y < V ->
  count_if (fun i => free i && negb (active i)) (H * V) < fuel ->
  exists a, region H V can_merge fuel free x y from active = Ret a /\
    (forall j, active j = true -> a j = true) /\
    (forall j, a j = true -> active j = true \/ (j < H * V /\ free j = true)) /\
    (forall j k, a j = true -> active j = false -> adjacent H V j k -> entry can_merge free j k -> a k = true).
Proof.
  intros H V can_merge free x y from active fuel X Y L.
  destruct (region_good H V can_merge free fuel x y from active X Y L) as (a & E & [G1 G2 G3 _] & _). exists a. auto.
Qed.
Print Assumptions C30_from_any_state.
Example C30_example :
  match region 3 2 (fun a b => Nat.eqb a b || Nat.ltb b 4) 7 (fun i => negb (Nat.eqb i 1)) 0 0 0 (fun _ => false) with
  | Ret a => map a (seq 0 6) = [true; false; false; true; false; false] | _ => False end.
Proof. vm_compute. auto. Qed.

(** ** C32 — merge labels *)
Theorem C32_labels :
  forall fit_ok seg_merge n seg con,
  let m := merge_planes fit_ok seg_merge n seg con in
  forall j, m_label m j <= j /\ m_label m (m_label m j) = m_label m j /\ linked seg_merge seg con (m_label m j) j.
Proof.
  intros fit_ok seg_merge n seg con m j. assert (I := merge_planes_inv fit_ok seg_merge n seg con). fold m in I.
  split; [apply (mi_le _ _ _ _ _ _ I)|]. split; [apply (mi_root _ _ _ _ _ _ I)|apply (mi_linked _ _ _ _ _ _ I)].
Qed.
Print Assumptions C32_labels.
(** A planar plane that keeps its own number was refused by every plane before it which
    is adjacent to it, or that plane was merged in one that is not planar any more. *)
Theorem C32_not_merged_was_refused :
  forall fit_ok seg_merge n seg con,
  let m := merge_planes fit_ok seg_merge n seg con in
  forall i c, i < c -> c < n -> m_label m c = c -> con i c = true -> s_planar (seg c) = true ->
  s_planar (m_seg m (m_label m i)) = false \/
  exists f, merged_fit seg_merge seg con (m_label m i) f /\ seg_merge f (s_fit (seg c)) = false.
Proof.
  intros fit_ok seg_merge n seg con m i c L Ln. assert (I := merge_planes_inv fit_ok seg_merge n seg con). fold m in I.
  apply (mi_refused _ _ _ _ _ _ I); auto. lia.
Qed.
Print Assumptions C32_not_merged_was_refused.
Definition ex_seg (k : nat) : segment := mkSeg [10 * k; S (10 * k)] [10 * k; S (10 * k)] true.
Definition ex_con (l : list (nat * nat)) (a b : nat) : bool := existsb (fun p => (Nat.eqb (fst p) a && Nat.eqb (snd p) b) || (Nat.eqb (fst p) b && Nat.eqb (snd p) a)) l.
Example C32_example :
  map (m_label (merge_planes (fun _ => true) (fun a b => Nat.ltb (length a) 6) 5 ex_seg (ex_con [(0, 2); (2, 3); (1, 4); (3, 4)]))) (seq 0 5) = [0; 1; 0; 0; 1].
Proof. vm_compute. reflexivity. Qed.

(** The points of a merged plane are those of the planes merged in it... *)
Theorem C58_merged_points :
  forall fit_ok seg_merge n seg con,
  let m := merge_planes fit_ok seg_merge n seg con in
  forall j, exists ms, all_linked seg_merge seg con j ms /\ s_cells (m_seg m j) = s_cells (seg j) ++ flat_map (fun k => s_cells (seg k)) ms.
Proof.
  intros fit_ok seg_merge n seg con m j. assert (I := merge_planes_inv fit_ok seg_merge n seg con). apply (mi_cells _ _ _ _ _ _ I).
Qed.
Print Assumptions C58_merged_points.
(** ... but a plane can be merged in two reported planes: its points count in both. *)
Theorem C58_merged_in_one_plane_refuted :
  exists fit_ok seg_merge n seg con i j k cell,
  let m := merge_planes fit_ok seg_merge n seg con in
  map fst (kept n m) = [i; j] /\ i <> j /\ In cell (s_cells (seg k)) /\
  In cell (s_cells (m_seg m i)) /\ In cell (s_cells (m_seg m j)) /\ ~ In cell (s_cells (seg i)) /\ ~ In cell (s_cells (seg j)).
Proof.
  exists (fun _ => true), (fun a b => true), 3, ex_seg, (ex_con [(0, 2); (1, 2)]), 0, 1, 2, 20. cbn zeta. vm_compute.
  repeat split; auto 6; try discriminate; intros K; repeat (destruct K as [K|K]; try discriminate); contradiction.
Qed.
Print Assumptions C58_merged_in_one_plane_refuted.

(** A planar plane is fitted on all the cells it has after the merge. *)
Theorem C58_planes_fitted_on_their_cells :
  forall fit_ok seg_merge n planes con,
  let m := merge_planes fit_ok seg_merge n (segments_of fit_ok planes) con in
  forall j, s_planar (m_seg m j) = true -> s_fit (m_seg m j) = s_cells (m_seg m j).
Proof.
  intros fit_ok seg_merge n planes con m. assert (I := merge_planes_inv fit_ok seg_merge n (segments_of fit_ok planes) con).
  apply (mi_fresh _ _ _ _ _ _ I). intros j. unfold segments_of. destruct (nth_error planes j); reflexivity.
Qed.
Print Assumptions C58_planes_fitted_on_their_cells.

(** ** C33 — adjacency *)
(** neighbouring cells, with row and column: at the right or below, in either order *)
Definition neighbours (rows cols : nat) (r c r' c' : nat) : Prop :=
  r < rows /\ c < cols /\ r' < rows /\ c' < cols /\
  ((r = r' /\ (c' = S c \/ c = S c')) \/ (c = c' /\ (r' = S r \/ r = S r'))).
Theorem C33_sound :
  forall rows cols label a b, connected rows cols label a b = true ->
  a <> b /\ exists r c r' c', neighbours rows cols r c r' c' /\ label r c = S a /\ label r' c' = S b.
Proof.
  intros rows cols label a b E. apply connected_iff in E as (N & r & c & R & C & K). split; auto. unfold neighbours.
  destruct K as [[K1 [K2|K2]]|[K1 [K2|K2]]].
  - exists r, c, r, (S c). repeat split; auto; lia.
  - exists r, c, (S r), c. repeat split; auto; lia.
  - exists r, (S c), r, c. repeat split; auto; lia.
  - exists (S r), c, r, c. repeat split; auto; lia.
Qed.
Print Assumptions C33_sound.
Theorem C33_symmetric :
  forall rows cols label a b, connected rows cols label a b = connected rows cols label b a.
Proof.
  intros rows cols label a b. assert (G : forall a b, connected rows cols label a b = true -> connected rows cols label b a = true).
  { intros x y E. apply connected_iff in E as (N & r & c & R & C & K). apply connected_iff. split; [auto|]. exists r, c. repeat split; auto; tauto. }
  destruct (connected rows cols label a b) eqn:E1, (connected rows cols label b a) eqn:E2; auto.
  - apply G in E1. congruence.
  - apply G in E2. congruence.
Qed.
Print Assumptions C33_symmetric.
(** Complete when the two cells are not both in the last row or both in the last column. *)
Theorem C33_complete :
  forall rows cols label a b r c r' c', a <> b -> neighbours rows cols r c r' c' -> label r c = S a -> label r' c' = S b ->
  ~ (r = rows - 1 /\ r' = rows - 1) -> ~ (c = cols - 1 /\ c' = cols - 1) -> connected rows cols label a b = true.
Proof.
  intros rows cols label a b r c r' c' N (R1 & C1 & R2 & C2 & K) A B E1 E2. apply connected_iff. split; auto.
  destruct K as [[-> [->| ->]]|[-> [->| ->]]].
  - exists r', c. repeat split; auto; lia.
  - exists r', c'. repeat split; auto; lia.
  - exists r, c'. repeat split; auto; lia.
  - exists r', c'. repeat split; auto; lia.
Qed.
Print Assumptions C33_complete.
Theorem C33_complete_refuted :
  exists rows cols label a b r c r' c', a <> b /\ neighbours rows cols r c r' c' /\ label r c = S a /\ label r' c' = S b /\
    connected rows cols label a b = false.
Proof.
  exists 2, 2, (fun r c => if Nat.eqb r 1 then S c else 0), 0, 1, 1, 0, 1, 1. unfold neighbours. repeat split; auto; lia.
Qed.
Print Assumptions C33_complete_refuted.
(** all writes are inside the matrix when the labels are those of planes *)
Theorem C33_inside_matrix :
  forall rows cols label n, (forall r c, label r c <= n) -> forall p, In p (connected_pairs rows cols label) -> fst p < n /\ snd p < n.
Proof.
  intros rows cols label n L [a b] I. unfold connected_pairs in I. apply in_flat_map in I as (r & _ & I). apply in_flat_map in I as (c & _ & I).
  apply pairs_at_in in I as [_ I]. cbn. assert (L1 := L r c). assert (L2 := L r (S c)). assert (L3 := L (S r) c). lia.
Qed.
Print Assumptions C33_inside_matrix.
Example C33_example : connected 2 2 (fun r c => S (r + c)) 0 1 = true.
Proof. reflexivity. Qed.

(** ** C59 — masks of the reported planes *)
Lemma kept_in n m i js : In (i, js) (kept n m) <->
  i < n /\ m_label m i = i /\ s_planar (m_seg m i) = true /\ js = filter (fun j => Nat.eqb (m_label m j) i) (seq i (n - i)).
Proof.
  unfold kept. rewrite in_map_iff. split.
  - intros (x & [= -> <-] & I). apply filter_In in I as [L K]. apply in_seq in L. apply andb_prop in K as [K1 K2]. apply Nat.eqb_eq in K1. auto with zarith.
  - intros (L & K1 & K2 & ->). exists i. split; auto. apply filter_In. split; [apply in_seq; lia|]. now rewrite K1, Nat.eqb_refl.
Qed.
Section Masks.
Variables H V : nat.
Variable planar : nat -> bool.
Variable mse : nat -> dbl.
Variable can_merge : nat -> nat -> bool.
Variables min_seeds min_cells : nat.
Variable fit_ok score_high : list nat -> bool.
Variable cylinder_fit : list nat -> list (list nat).
Variable plane_better : list nat -> list nat -> bool.
Variable bin : nat -> nat.
Variable seg_merge : list nat -> list nat -> bool.
Notation find_planes := (PrimitiveModel.find_planes H V planar mse can_merge min_seeds min_cells fit_ok score_high cylinder_fit plane_better bin seg_merge).

(** The extraction of a frame gives a result; each reported plane has its own
    number, is planar and its mask holds the cells of the planes with its label; a cell
    is in the mask of at most one reported plane, namely the one of the label of
    its plane; a cell of a plane is in no mask only if the plane with its label is not
    planar. *)
Theorem C59_masks :
  growth_hyps H V planar cylinder_fit bin ->
  exists g m l, find_planes (S (count_if planar (H * V))) = Ret (g, m, l) /\
    NoDup (map fst l) /\
    (forall i js, In (i, js) l -> i < length (g_planes g) /\ s_planar (m_seg m i) = true) /\
    (forall i js cell, In (i, js) l -> (in_mask (g_label g) js cell = true <-> exists k, k < length (g_planes g) /\ g_label g cell = S k /\ m_label m k = i)) /\
    (forall i js i' js' cell, In (i, js) l -> In (i', js') l -> in_mask (g_label g) js cell = true -> in_mask (g_label g) js' cell = true -> i = i') /\
    (forall cell k, g_label g cell = S k -> s_planar (m_seg m (m_label m k)) = true -> exists js, In (m_label m k, js) l /\ in_mask (g_label g) js cell = true).
Proof.
  intros Hy. destruct (C29_terminates H V planar mse can_merge min_seeds min_cells fit_ok score_high cylinder_fit plane_better bin Hy) as (g & E & R & _).
  destruct (C31_one_plane_by_cell _ _ _ _ _ _ _ _ _ _ _ _ Hy g R) as (Lmax & _).
  unfold PrimitiveModel.find_planes. change (PrimitiveModel.total H V) with (H * V) in E. rewrite E. cbn [bind].
  set (n := length (g_planes g)) in *. set (con := connected V H (fun r c => g_label g (c + H * r))). set (sg := segments_of fit_ok (g_planes g)).
  set (m := merge_planes fit_ok seg_merge n sg con).
  assert (I := merge_planes_inv fit_ok seg_merge n sg con). fold m in I.
  assert (Mask : forall i js cell, In (i, js) (kept n m) -> (in_mask (g_label g) js cell = true <-> exists k, k < n /\ g_label g cell = S k /\ m_label m k = i)).
  { intros i js cell K. apply kept_in in K as (Li & Ri & Pi & ->). unfold in_mask. rewrite existsb_exists. split.
    - intros (j & J & Ej). apply filter_In in J as [J1 J2]. apply in_seq in J1. apply Nat.eqb_eq in J2, Ej. exists j. repeat split; auto. lia.
    - intros (k & Lk & Ek & Mk). exists k. split; [|now apply Nat.eqb_eq]. apply filter_In. split; [|now apply Nat.eqb_eq].
      apply in_seq. assert (X := mi_le _ _ _ _ _ _ I k). lia. }
  exists g, m, (kept n m). split; [reflexivity|]. split; [|split; [|split; [exact Mask|split]]].
  - unfold kept. rewrite map_map. cbn [fst]. rewrite map_id. apply NoDup_filter, seq_NoDup.
  - intros i js K. apply kept_in in K. tauto.
  - intros i js i' js' cell K K' M M'. apply (Mask _ _ _ K) in M as (k & _ & Ek & <-). apply (Mask _ _ _ K') in M' as (k' & _ & Ek' & <-). congruence.
  - intros cell k Ek P. assert (Lk : k < n) by (specialize (Lmax cell); lia). assert (X := mi_le _ _ _ _ _ _ I k).
    assert (K : In (m_label m k, filter (fun j => Nat.eqb (m_label m j) (m_label m k)) (seq (m_label m k) (n - m_label m k))) (kept n m)).
    { apply kept_in. repeat split; auto; [lia|]. apply (mi_root _ _ _ _ _ _ I). }
    eexists. split; [exact K|]. apply (Mask _ _ _ K). exists k. auto.
Qed.
End Masks.
Print Assumptions C59_masks.
Example C59_example :
  match find_planes 3 4 (fun _ => true) (fun _ => done) (fun a b => Nat.eqb (Nat.div a 6) (Nat.div b 6)) 1 1 (fun _ => true) (fun _ => true)
     (fun _ => []) (fun _ _ => true) (fun i => 7 + Nat.div i 6) (fun _ _ => true) 13 with
  | Ret (g, m, l) => l = [(0, [0; 1])] /\ map (in_mask (g_label g) [0; 1]) (seq 0 12) = repeat true 12 | _ => False end.
Proof. vm_compute. auto. Qed.
