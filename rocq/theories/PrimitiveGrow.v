(** The growth loop: invariant, measure, termination. *)
From Coq Require Import ZifyBool ZifyNat Permutation.
From Verif Require Import PrimitiveModel PrimitiveSpec PrimitiveProofs.
Import ListNotations.

(** ** Sum of the counters *)
Definition hsum (h : histogram) : nat := list_sum (map (h_count h) (seq 0 hist_size)).
Lemma sum_ext (f g : nat -> nat) l : (forall x, In x l -> f x = g x) -> list_sum (map f l) = list_sum (map g l).
Proof. intros E. f_equal. now apply map_ext_in. Qed.
Lemma sum_le (f g : nat -> nat) l : (forall x, In x l -> f x <= g x) -> list_sum (map f l) <= list_sum (map g l).
Proof.
  induction l as [|a l IH]; intros E; [apply le_n|]. cbn. assert (A := E a (or_introl eq_refl)). assert (B := IH (fun x X => E x (or_intror X))).
  unfold list_sum in B. lia.
Qed.
Lemma sum_lt (f g : nat -> nat) l b : In b l -> (forall x, In x l -> f x <= g x) -> f b < g b -> list_sum (map f l) < list_sum (map g l).
Proof.
  induction l as [|a l IH]; intros I E L; [contradiction|]. cbn. assert (A := E a (or_introl eq_refl)). destruct I as [->|I].
  - assert (B := sum_le f g l (fun x X => E x (or_intror X))). unfold list_sum in B. lia.
  - assert (B := IH I (fun x X => E x (or_intror X)) L). unfold list_sum in B. lia.
Qed.

(** counting by bins *)
Lemma sum_single b n : b < n -> list_sum (map (fun x => if Nat.eqb b x then 1 else 0) (seq 0 n)) = 1.
Proof.
  intros L. assert (G : forall m s, list_sum (map (fun x => if Nat.eqb b x then 1 else 0) (seq s m)) = if Nat.leb s b && Nat.ltb b (s + m) then 1 else 0).
  { induction m as [|m IH]; intros s.
    - destruct (Nat.leb_spec s b), (Nat.ltb_spec b (s + 0)); cbn; lia.
    - cbn [seq map list_sum fold_right]. assert (I := IH (S s)). unfold list_sum in I. rewrite I.
      destruct (Nat.eqb_spec b s), (Nat.leb_spec (S s) b), (Nat.ltb_spec b (S s + m)), (Nat.leb_spec s b), (Nat.ltb_spec b (s + S m)); cbn; lia. }
  rewrite G. destruct (Nat.leb_spec 0 b), (Nat.ltb_spec b (0 + n)); cbn; lia.
Qed.
Lemma sum_plus (f g : nat -> nat) l : list_sum (map (fun x => f x + g x) l) = list_sum (map f l) + list_sum (map g l).
Proof. induction l as [|a l IH]; [reflexivity|]. cbn. unfold list_sum in IH. lia. Qed.
Lemma sum_zero l : list_sum (map (fun _ : nat => 0) l) = 0.
Proof. induction l; auto. Qed.
Lemma sum_counts (mask : nat -> bool) (bin : nat -> nat) l m :
  (forall i, In i l -> mask i = true -> bin i < m) ->
  list_sum (map (fun b => length (filter (fun i => mask i && Nat.eqb (bin i) b) l)) (seq 0 m)) = length (filter mask l).
Proof.
  induction l as [|a l IH]; intros B; [apply sum_zero|].
  assert (IH' := IH (fun i I => B i (or_intror I))). cbn [filter]. destruct (mask a) eqn:M.
  - transitivity (list_sum (map (fun b => (if Nat.eqb (bin a) b then 1 else 0) + length (filter (fun i => mask i && Nat.eqb (bin i) b) l)) (seq 0 m))).
    + apply sum_ext. intros b _. cbn [andb]. destruct (Nat.eqb (bin a) b); reflexivity.
    + rewrite sum_plus, IH', sum_single; [reflexivity|]. apply B; auto. now left.
  - rewrite <- IH'. apply sum_ext. intros b _. cbn [andb]. reflexivity.
Qed.

Lemma remove_hsum p h h' :
  p < h_n h -> (0 <= h_bins h p < Z.of_nat hist_size)%Z -> remove_point p h = Ret h' ->
  hsum h' <= hsum h /\ (0 < h_count h (Z.to_nat (h_bins h p)) -> hsum h' < hsum h).
Proof.
  intros L B E. destruct (remove_point_spec p h L B) as (h1 & E1 & _ & _ & C). rewrite E in E1. injection E1 as <-.
  assert (P : forall x, In x (seq 0 hist_size) -> h_count h' x <= h_count h x). { intros x _. rewrite C. destruct (Nat.eqb x _); lia. }
  split; [now apply sum_le|]. intros G. apply sum_lt with (Z.to_nat (h_bins h p)); auto.
  - apply in_seq. lia.
  - rewrite C, Nat.eqb_refl. lia.
Qed.

Section Grow.
Variables H V : nat.
Variable planar : nat -> bool.
Variable mse : nat -> dbl.
Variable can_merge : nat -> nat -> bool.
Variables min_seeds min_cells : nat.
Variable fit_ok score_high : list nat -> bool.
Variable cylinder_fit : list nat -> list (list nat).
Variable plane_better : list nat -> list nat -> bool.
Variable bin : nat -> nat.
Notation total := (PrimitiveModel.total H V).

Definition hist_ok (h : histogram) : Prop :=
  h_n h = total /\
  (forall i, i < total -> planar i = true -> (0 <= h_bins h i < Z.of_nat hist_size)%Z) /\
  (forall i, i < total -> planar i = false -> h_bins h i = (-1)%Z).

Lemma hist_ok_remove p h :
  hist_ok h -> p < total -> planar p = true -> exists h', remove_point p h = Ret h' /\ hist_ok h' /\
    (forall i, h_bins h' i = if Nat.eqb i p then 1%Z else h_bins h i) /\
    (forall b, h_count h' b = if Nat.eqb b (Z.to_nat (h_bins h p)) then pred (h_count h b) else h_count h b).
Proof.
  intros (N & B & M) L P. destruct (remove_point_spec p h) as (h' & E & N' & B' & C); [lia|now apply B|].
  exists h'. split; [exact E|]. split; [|auto]. split; [lia|]. split.
  - intros i Li Pi. rewrite B'. destruct (Nat.eqb i p); [unfold hist_size, hist_side; lia|auto].
  - intros i Li Pi. rewrite B'. destruct (Nat.eqb_spec i p); [congruence|auto].
Qed.

Record labels_ok (g : gstate) : Prop := {
  lab_free : forall i, i < total -> g_label g i <> 0 -> g_free g i = false;
  lab_cfree : forall i, i < total -> g_cylinder_label g i <> 0 -> g_free g i = false;
  lab_one : forall i, i < total -> g_label g i <> 0 -> g_cylinder_label g i = 0;
  lab_cells : forall k cells, nth_error (g_planes g) k = Some cells -> forall i, In i cells <-> (i < total /\ g_label g i = S k);
  lab_max : forall i, g_label g i <= length (g_planes g);
  lab_cmax : forall i, g_cylinder_label g i <= length (g_map g);
  lab_map : Forall (fun p => fst p < g_cylinders g) (g_map g);
  lab_shape : Forall plane_shape (g_planes g)
}.
Record Inv (g : gstate) : Prop := {
  inv_hist : hist_ok (g_hist g);
  inv_free : forall i, g_free g i = true -> i < total /\ planar i = true;
  inv_untried : g_untried g = Z.of_nat (count_if (g_free g) total);
  inv_labels : labels_ok g
}.
(** what a step keeps *)
Record keeps (g g' : gstate) : Prop := {
  keeps_label : forall i, i < total -> g_label g i <> 0 -> g_label g' i = g_label g i;
  keeps_cylinder : forall i, i < total -> g_cylinder_label g i <> 0 -> g_cylinder_label g' i = g_cylinder_label g i;
  keeps_planes : exists l, g_planes g' = g_planes g ++ l;
  keeps_map : exists l, g_map g' = g_map g ++ l;
  keeps_free : forall i, g_free g' i = true -> g_free g i = true
}.
Lemma keeps_refl g : keeps g g.
Proof. constructor; auto; exists []; now rewrite app_nil_r. Qed.
Lemma keeps_trans a b c : keeps a b -> keeps b c -> keeps a c.
Proof.
  intros [A1 A2 [l A3] [m A4] A5] [B1 B2 [l' B3] [m' B4] B5]. constructor.
  - intros i L N. rewrite B1, A1; auto. now rewrite A1.
  - intros i L N. rewrite B2, A2; auto. now rewrite A2.
  - exists (l ++ l'). now rewrite B3, A3, app_assoc.
  - exists (m ++ m'). now rewrite B4, A4, app_assoc.
  - auto.
Qed.

Hypothesis small : (Z.of_nat total < 2 ^ 32)%Z.

Lemma merge_cells_spec active is :
  forall cells count g, NoDup is -> (forall i, In i is -> i < total) -> hist_ok (g_hist g) ->
  (forall i, In i is -> active i = true -> g_free g i = true /\ planar i = true) ->
  g_untried g = Z.of_nat (count_if (g_free g) total) ->
  exists g', merge_cells planar active is cells count g = Ret ((cells ++ filter active is, count + length (filter active is)), g') /\
    hist_ok (g_hist g') /\
    (forall i, g_free g' i = g_free g i && negb (existsb (Nat.eqb i) is && active i)) /\
    g_untried g' = Z.of_nat (count_if (g_free g') total) /\
    g_label g' = g_label g /\ g_cylinder_label g' = g_cylinder_label g /\ g_planes g' = g_planes g /\ g_cylinders g' = g_cylinders g /\ g_map g' = g_map g /\
    hsum (g_hist g') <= hsum (g_hist g) /\
    (forall s, In s is -> active s = true -> 0 < h_count (g_hist g) (Z.to_nat (h_bins (g_hist g) s)) -> hsum (g_hist g') < hsum (g_hist g)).
Proof.
  induction is as [|i is IH]; intros cells count g N L HO A U; cbn [merge_cells].
  - exists g. cbn. rewrite app_nil_r, Nat.add_0_r. split; [reflexivity|]. split; [exact HO|].
    split; [intros i; now rewrite andb_true_r|]. do 7 (split; [now auto|]). intros s [].
  - destruct (proj1 (NoDup_cons_iff i is) N) as [Ni N']. destruct (active i) eqn:Ac.
    + destruct (A i (or_introl eq_refl) Ac) as [Fi Pi]. rewrite Pi. cbn [andb].
      assert (Li := L i (or_introl eq_refl)).
      destruct (hist_ok_remove i (g_hist g) HO Li Pi) as (h' & E & HO' & B' & C'). rewrite E. cbn [bind].
      set (g1 := mkG _ _ _ _ _ _ _ _).
      assert (CF : count_if (g_free g) total = S (count_if (g_free g1) total)).
      { apply count_flip with (a := i); auto.
        - cbn. apply set_eq.
        - intros x _ X. cbn. now apply set_neq. }
      destruct (IH (cells ++ [i]) (S count) g1 N') as (g' & E' & HO1 & F1 & U1 & A1 & A2 & A3 & A4 & A5 & S1 & S2).
      * intros j J. apply L. now right.
      * exact HO'.
      * intros j J Aj. destruct (A j (or_intror J) Aj) as [Fj Pj]. split; auto. cbn. rewrite set_neq; auto. intros ->. contradiction.
      * cbn [g_untried g1]. rewrite U, CF. assert (X := count_bound (g_free g) total). rewrite Z.mod_small; lia.
      * exists g'. rewrite E'. cbn [filter]. rewrite Ac. split.
        { rewrite <- app_assoc. cbn [app length]. f_equal. f_equal. f_equal. lia. }
        split; [exact HO1|]. split.
        { intros j. rewrite F1. cbn [g_free g1 existsb]. unfold set. destruct (Nat.eqb_spec j i) as [->|X]; cbn [andb orb]; auto.
          rewrite Ac. now rewrite andb_false_r. }
        destruct (remove_hsum i (g_hist g) h') as [R1 R2]; auto; [destruct HO; lia|now apply HO|].
        cbn [g_hist g1] in S1, S2. repeat split; auto; [lia|].
        intros s [<-|Is] As Ps; [specialize (R2 Ps); lia|].
        destruct (Nat.eq_dec (Z.to_nat (h_bins (g_hist g) s)) (Z.to_nat (h_bins (g_hist g) i))) as [Eb|Eb].
        { rewrite Eb in Ps. specialize (R2 Ps). lia. }
        assert (s <> i) by (intros ->; contradiction).
        enough (hsum (g_hist g') < hsum h') by lia. apply (S2 s); auto.
        rewrite B'. destruct (Nat.eqb_spec s i); [contradiction|]. rewrite C'. destruct (Nat.eqb_spec (Z.to_nat (h_bins (g_hist g) s)) (Z.to_nat (h_bins (g_hist g) i))); [contradiction|auto].
    + cbn [andb]. destruct (IH cells count g N') as (g' & E' & HO1 & F1 & U1 & A1 & A2 & A3 & A4 & A5 & S1 & S2); auto.
      * intros j J. apply L. now right.
      * intros j J. apply A. now right.
      * exists g'. rewrite E'. cbn [filter]. rewrite Ac. split; [reflexivity|]. split; [exact HO1|]. split.
        { intros j. rewrite F1. cbn [existsb]. destruct (Nat.eqb_spec j i) as [->|X]; auto. rewrite Ac. now rewrite !andb_false_r. }
        repeat split; auto. intros s [<-|Is] As; [congruence|]. now apply S2.
Qed.

Lemma nth_error_snoc {A} (l : list A) x k y : nth_error (l ++ [x]) k = Some y -> nth_error l k = Some y \/ (k = length l /\ y = x).
Proof.
  intros E. destruct (Nat.lt_ge_cases k (length l)) as [L|L].
  - rewrite nth_error_app1 in E; auto.
  - rewrite nth_error_app2 in E by auto. right. destruct (k - length l) as [|m] eqn:D.
    + cbn in E. injection E as <-. split; auto. lia.
    + destruct m; discriminate.
Qed.

(** [add_plane] on cells which have no label *)
Lemma add_plane_ok cells active g :
  (forall i, active i = true -> i < total /\ g_free g i = false /\ g_label g i = 0 /\ g_cylinder_label g i = 0) ->
  (forall i, In i cells <-> active i = true) -> plane_shape cells ->
  labels_ok g -> labels_ok (add_plane H V cells active g) /\ keeps g (add_plane H V cells active g).
Proof.
  intros A C Sh [L1 L2 L3 L4 L5 L6 L7 L8]. split.
  - constructor; cbn [add_plane g_label g_cylinder_label g_free g_planes g_map g_cylinders]; auto.
    + intros i Li. destruct (Nat.ltb i total && active i) eqn:E; [|auto]. intros _. apply andb_prop in E as [_ E]. now apply A.
    + intros i Li. destruct (Nat.ltb i total && active i) eqn:E; [|auto]. intros _. apply andb_prop in E as [_ E]. now apply A.
    + intros k cs E i. destruct (nth_error_snoc _ _ _ _ E) as [E1|[-> ->]].
      * rewrite (L4 k cs E1). destruct (Nat.ltb i total && active i) eqn:B; [|reflexivity]. apply andb_prop in B as [_ B].
        destruct (A i B) as (_ & _ & Z & _). assert (K : k < length (g_planes g)) by (apply nth_error_Some; congruence). split; intros [? ?]; lia.
      * rewrite C. destruct (Nat.ltb_spec i total) as [Li|Li]; cbn [andb].
        -- destruct (active i) eqn:B; [split; auto|]. split; [discriminate|]. intros [_ Z]. specialize (L5 i). lia.
        -- split; [intros B; apply A in B; lia|intros [? ?]; lia].
    + intros i. rewrite app_length; cbn [length]. specialize (L5 i). destruct (Nat.ltb i total && active i); lia.
    + apply Forall_app. split; auto.
  - constructor; cbn [add_plane g_label g_cylinder_label g_free g_planes g_map]; auto.
    + intros i Li. destruct (Nat.ltb i total && active i) eqn:E; [|auto]. intros N. apply andb_prop in E as [_ E]. apply A in E. lia.
    + now exists [cells].
    + exists []. now rewrite app_nil_r.
Qed.

Lemma add_part_ok act k group g :
  (forall i, In i group -> i < total /\ planar i = true /\ g_free g i = false /\ g_label g i = 0 /\ g_cylinder_label g i = 0) ->
  NoDup group -> 0 < g_cylinders g ->
  labels_ok g ->
  let g' := add_part planar plane_better act k group g in
  labels_ok g' /\ keeps g g' /\ g_free g' = g_free g /\ g_hist g' = g_hist g /\ g_untried g' = g_untried g /\ g_cylinders g' = g_cylinders g /\
  (forall i, ~ In i group -> g_label g' i = g_label g i /\ g_cylinder_label g' i = g_cylinder_label g i).
Proof.
  intros A N Cp LO. assert (LO' := LO). destruct LO as [L1 L2 L3 L4 L5 L6 L7 L8]. unfold add_part.
  assert (Fp : filter planar group = group) by (apply filter_all; intros x X; now apply A). rewrite Fp.
  destruct (Nat.eqb (length group) 0) eqn:Z.
  { cbn zeta. refine (conj LO' (conj (keeps_refl g) _)). repeat split; auto. }
  assert (SL : forall f v i, set_labels f group v i = if existsb (Nat.eqb i) group then v else f i) by reflexivity.
  destruct (plane_better act group).
  - split; [|split]; [| |cbn [g_free g_hist g_untried g_cylinders g_label g_cylinder_label]; do 4 (split; [reflexivity|]); intros i Ni; rewrite SL;
      destruct (existsb (Nat.eqb i) group) eqn:B; auto; apply existsb_eqb in B; contradiction].
    + constructor; cbn [g_label g_cylinder_label g_free g_planes g_map g_cylinders]; auto.
      * intros i Li. rewrite SL. destruct (existsb (Nat.eqb i) group) eqn:B; [|auto]. intros _. apply existsb_eqb in B. now apply A.
      * intros i Li. rewrite SL. destruct (existsb (Nat.eqb i) group) eqn:B; [|auto]. intros _. apply existsb_eqb in B. now apply A.
      * intros q cs E i. rewrite SL. destruct (nth_error_snoc _ _ _ _ E) as [E1|[-> ->]].
        -- rewrite (L4 q cs E1). destruct (existsb (Nat.eqb i) group) eqn:B; [|reflexivity]. apply existsb_eqb in B.
           destruct (A i B) as (_ & _ & _ & Zi & _). assert (K : q < length (g_planes g)) by (apply nth_error_Some; congruence). split; intros [? ?]; lia.
        -- destruct (existsb (Nat.eqb i) group) eqn:B.
           ++ apply existsb_eqb in B. destruct (A i B) as [Li _]. split; auto.
           ++ split; [intros I; apply existsb_eqb in I; congruence|]. intros [_ X]. specialize (L5 i). lia.
      * intros i. rewrite SL, app_length; cbn [length]. specialize (L5 i). destruct (existsb (Nat.eqb i) group); lia.
      * apply Forall_app. split; auto. constructor; auto. now left.
    + constructor; cbn [g_label g_cylinder_label g_free g_planes g_map]; auto.
      * intros i Li X. rewrite SL. destruct (existsb (Nat.eqb i) group) eqn:B; [|auto]. apply existsb_eqb in B. apply A in B. lia.
      * now exists [group].
      * exists []. now rewrite app_nil_r.
  - split; [|split]; [| |cbn [g_free g_hist g_untried g_cylinders g_label g_cylinder_label]; do 4 (split; [reflexivity|]); intros i Ni; rewrite SL;
      destruct (existsb (Nat.eqb i) group) eqn:B; auto; apply existsb_eqb in B; contradiction].
    + constructor; cbn [g_label g_cylinder_label g_free g_planes g_map g_cylinders]; auto.
      * intros i Li. rewrite SL. destruct (existsb (Nat.eqb i) group) eqn:B; [|auto]. intros _. apply existsb_eqb in B. now apply A.
      * intros i Li X. rewrite SL. destruct (existsb (Nat.eqb i) group) eqn:B; [|auto]. apply existsb_eqb in B. apply A in B. lia.
      * intros i. rewrite SL, app_length; cbn [length]. specialize (L6 i). destruct (existsb (Nat.eqb i) group); lia.
      * apply Forall_app. split; auto. constructor; auto. cbn. lia.
    + constructor; cbn [g_label g_cylinder_label g_free g_planes g_map]; auto.
      * intros i Li X. rewrite SL. destruct (existsb (Nat.eqb i) group) eqn:B; [|auto]. apply existsb_eqb in B. apply A in B. lia.
      * exists []. now rewrite app_nil_r.
      * now eexists.
Qed.

Lemma add_parts_ok act groups : forall k g,
  (forall group i, In group groups -> In i group -> i < total /\ planar i = true /\ g_free g i = false /\ g_label g i = 0 /\ g_cylinder_label g i = 0) ->
  (forall group, In group groups -> NoDup group) ->
  (forall a b ga gb i, nth_error groups a = Some ga -> nth_error groups b = Some gb -> In i ga -> In i gb -> a = b) ->
  0 < g_cylinders g -> labels_ok g ->
  let g' := add_parts planar plane_better act k groups g in
  labels_ok g' /\ keeps g g' /\ g_free g' = g_free g /\ g_hist g' = g_hist g /\ g_untried g' = g_untried g.
Proof.
  induction groups as [|group groups IH]; intros k g A N D C LO; cbn [add_parts].
  - refine (conj LO (conj (keeps_refl g) _)). repeat split; auto.
  - destruct (add_part_ok act k group g) as (P1 & P2 & P3 & P4 & P5 & P6 & P7); auto.
    { intros i I. apply (A group); auto. now left. }
    { apply N. now left. }
    set (g1 := add_part planar plane_better act k group g) in *.
    destruct (IH (S k) g1) as (Q1 & Q2 & Q3 & Q4 & Q5); auto.
    + intros gr i G I. destruct (A gr i (or_intror G) I) as (B1 & B2 & B3 & B4 & B5).
      assert (Ni : ~ In i group).
      { intros I0. apply In_nth_error in G as [n G]. specialize (D 0 (S n) group gr i eq_refl G I0 I). discriminate. }
      destruct (P7 i Ni) as [-> ->]. rewrite P3. auto.
    + intros gr G. apply N. now right.
    + intros a b ga gb i Ea Eb Ia Ib. specialize (D (S a) (S b) ga gb i Ea Eb Ia Ib). lia.
    + now rewrite P6.
    + cbn zeta. refine (conj Q1 (conj (keeps_trans _ _ _ P2 Q2) _)). repeat split; congruence.
Qed.

Hypothesis groups_ok : forall act, NoDup act -> disjoint_groups act (cylinder_fit act).

Lemma select_seed_spec l seed least :
  let '(s, m) := select_seed mse l seed least in (s = seed /\ m = least) \/ In s l.
Proof.
  revert seed least. induction l as [|c l IH]; intros seed least; cbn [select_seed]; [left; auto|].
  destruct (dle least (mse c)).
  - specialize (IH seed least). destruct (select_seed mse l seed least). destruct IH; [left; auto|right; now right].
  - destruct (dle (mse c) dzero); [right; now left|]. specialize (IH c (mse c)). destruct (select_seed mse l c (mse c)) as [s m].
    destruct IH as [[-> _]|]; right; [now left|now right].
Qed.
Lemma dmax_refl : dle dmax dmax = true.
Proof. vm_compute. reflexivity. Qed.

(** the result of [grow_at] *)
Lemma grow_at_ok seed g :
  Inv g -> seed < total -> planar seed = true -> 0 < h_count (g_hist g) (Z.to_nat (h_bins (g_hist g) seed)) ->
  exists g', grow_at H V planar can_merge min_cells fit_ok score_high cylinder_fit plane_better seed g = Ret g' /\
    Inv g' /\ keeps g g' /\ hsum (g_hist g') < hsum (g_hist g).
Proof.
  intros [HO FO UO LO] Ls Ps Cs. unfold grow_at. rewrite Ps. cbn [negb].
  destruct (region_exact H V can_merge (g_free g) seed Ls) as (active & Er & R). rewrite Er. cbn [bind].
  assert (Ain : forall i, active i = true -> i < total /\ g_free g i = true). { intros i I. apply R in I. apply (reach_inside _ _ _ _ _ _ I). }
  destruct (merge_cells_spec active (seq 0 total) [seed] 0 g (seq_NoDup _ _)) as (g1 & Em & HO1 & F1 & U1 & A1 & A2 & A3 & A4 & A5 & S1 & S2); auto.
  { intros i I. apply in_seq in I. lia. }
  { intros i _ I. destruct (Ain i I) as [_ Fi]. split; auto. now apply FO. }
  rewrite Em. cbn [bind]. rewrite Nat.add_0_l.
  assert (F1' : forall i, g_free g1 i = g_free g i && negb (active i)).
  { intros i. rewrite F1, existsb_seq. destruct (Nat.ltb_spec i total) as [L|L]; [reflexivity|]. cbn.
    destruct (active i) eqn:Ai; [apply Ain in Ai; lia|reflexivity]. }
  assert (LO1 : labels_ok g1).
  { destruct LO as [L1 L2 L3 L4 L5 L6 L7 L8]. constructor; rewrite ?A1, ?A2, ?A3, ?A4, ?A5; auto.
    - intros i Li X. rewrite F1', L1; auto.
    - intros i Li X. rewrite F1', L2; auto. }
  assert (FO1 : forall i, g_free g1 i = true -> i < total /\ planar i = true). { intros i I. rewrite F1' in I. apply andb_prop in I. now apply FO. }
  assert (K1 : keeps g g1).
  { constructor; rewrite ?A1, ?A2, ?A3, ?A5; auto; try (exists []; now rewrite app_nil_r). intros i I. rewrite F1' in I. now apply andb_prop in I. }
  assert (Act : forall i, In i (filter active (seq 0 total)) <-> active i = true).
  { intros i. rewrite filter_In, in_seq. split; [tauto|]. intros I. split; auto. apply Ain in I. lia. }
  assert (Zl : forall i, active i = true -> i < total /\ planar i = true /\ g_free g1 i = false /\ g_label g1 i = 0 /\ g_cylinder_label g1 i = 0).
  { intros i I. destruct (Ain i I) as [Li Fi]. split; auto. split; [now apply FO|]. split; [rewrite F1', I; apply andb_false_r|].
    rewrite A1, A2. split.
    - destruct (Nat.eq_dec (g_label g i) 0) as [|X]; auto. apply (lab_free _ LO) in X; congruence.
    - destruct (Nat.eq_dec (g_cylinder_label g i) 0) as [|X]; auto. apply (lab_cfree _ LO) in X; congruence. }
  (* the seed is activated as soon as a cell is *)
  assert (Seed : length (filter active (seq 0 total)) <> 0 -> active seed = true).
  { intros X. destruct (filter active (seq 0 total)) as [|i l] eqn:E; [now cbn in X|].
    assert (I : active i = true) by (apply Act; now left).
    apply R. apply R in I. clear - I. induction I as [L En|]; auto. now constructor. }
  destruct (Nat.eqb_spec (length (filter active (seq 0 total))) 0) as [Z|Z]; cbn [orb].
  { destruct (hist_ok_remove seed (g_hist g1) HO1 Ls Ps) as (h' & E & HO2 & B' & C'). rewrite E. cbn [bind].
    (* nothing was removed before *)
    assert (Eg : g_hist g1 = g_hist g).
    { assert (filter active (seq 0 total) = []) by (destruct (filter active (seq 0 total)); [reflexivity|discriminate]).
      clear - Em H0. assert (G : forall is cells count ga, filter active is = [] -> forall r gb, merge_cells planar active is cells count ga = Ret (r, gb) -> ga = gb).
      { induction is as [|i is IH]; intros cells count ga F r gb; cbn [merge_cells]; [now intros [= _ <-]|].
        cbn [filter] in F. destruct (active i); [discriminate|]. cbn [andb]. eauto. }
      now rewrite (G _ _ _ _ H0 _ _ Em). }
    eexists. split; [reflexivity|]. split; [|split].
    - constructor; cbn [g_hist g_free g_untried]; auto. destruct LO1 as [L1 L2 L3 L4 L5 L6 L7 L8]. constructor; auto.
    - destruct K1 as [K1 K2 K3 K4 K5]. constructor; auto.
    - cbn [g_hist]. destruct HO as (HOn & HOb & HOx). destruct (remove_hsum seed (g_hist g1) h') as [_ Rs]; auto.
      + rewrite Eg. lia.
      + rewrite Eg. auto.
      + rewrite Eg in *. apply Rs, Cs. }
  specialize (Seed Z).
  assert (Dec : hsum (g_hist g1) < hsum (g_hist g)). { apply (S2 seed); auto. apply in_seq. lia. }
  assert (I1 : Inv g1) by (constructor; auto).
  destruct (Nat.ltb (length (filter active (seq 0 total))) min_cells).
  { destruct (hist_ok_remove seed (g_hist g1) HO1 Ls Ps) as (h' & E & HO2 & B' & C'). rewrite E. cbn [bind].
    eexists. split; [reflexivity|]. split; [|split].
    - constructor; cbn [g_hist g_free g_untried]; auto. destruct LO1 as [L1 L2 L3 L4 L5 L6 L7 L8]. constructor; auto.
    - destruct K1 as [K1 K2 K3 K4 K5]. constructor; auto.
    - cbn [g_hist]. destruct HO1 as (HOn & HOb & HOx). destruct (remove_hsum seed (g_hist g1) h') as [Rs _]; auto; [lia|lia]. }
  destruct (fit_ok ([seed] ++ filter active (seq 0 total))); cbn [negb].
  2:{ exists g1. auto. }
  destruct (score_high ([seed] ++ filter active (seq 0 total))).
  { eexists. split; [reflexivity|].
    destruct (add_plane_ok ([seed] ++ filter active (seq 0 total)) active g1) as [P1 P2]; auto.
    - intros i I. destruct (Zl i I) as (Y1 & Y2 & Y3 & Y4 & Y5). auto.
    - intros i. cbn. rewrite Act. split; [intros [<-|]; auto|auto].
    - right. exists seed, (filter active (seq 0 total)). split; [reflexivity|]. split; [now apply Act|]. apply NoDup_filter, seq_NoDup.
    - split; [constructor; auto|]. split; [eapply keeps_trans; eauto|exact Dec]. }
  destruct (Nat.ltb 5 (length (filter active (seq 0 total)))).
  2:{ exists g1. auto. }
  eexists. split; [reflexivity|]. unfold cylinder_fitting.
  destruct (groups_ok (filter active (seq 0 total))) as [G1 G2]; [apply NoDup_filter, seq_NoDup|]. rewrite Forall_forall in G1.
  set (g2 := mkG _ _ _ _ _ _ _ _).
  destruct (add_parts_ok (filter active (seq 0 total)) (cylinder_fit (filter active (seq 0 total))) 0 g2) as (P1 & P2 & P3 & P4 & P5).
  - intros group i G I. apply Zl, Act. now apply (G1 group).
  - intros group G. now apply G1.
  - exact G2.
  - cbn. lia.
  - destruct LO1 as [L1 L2 L3 L4 L5 L6 L7 L8]. constructor; auto. cbn. eapply Forall_impl; [|exact L7]. intros p Hp. cbv beta in Hp |- *. lia.
  - assert (K2 : keeps g1 g2). { constructor; auto; exists []; cbn; now rewrite app_nil_r. }
    split; [constructor; rewrite ?P3, ?P4, ?P5; auto|]. split; [eapply keeps_trans; [exact K1|]; eapply keeps_trans; [exact K2|exact P2]|].
    rewrite P4. exact Dec.
Qed.

Lemma turn_ok g :
  Inv g ->
  turn H V planar mse can_merge min_seeds min_cells fit_ok score_high cylinder_fit plane_better g = Ret None \/
  exists g', turn H V planar mse can_merge min_seeds min_cells fit_ok score_high cylinder_fit plane_better g = Ret (Some g') /\
    Inv g' /\ keeps g g' /\ hsum (g_hist g') < hsum (g_hist g).
Proof.
  intros I. unfold turn. destruct (g_untried g <=? 0)%Z; [now left|].
  destruct (Nat.ltb (length (best_points (g_hist g))) min_seeds); [now left|].
  assert (S := select_seed_spec (best_points (g_hist g)) 0 dmax).
  destruct (select_seed mse (best_points (g_hist g)) 0 dmax) as [s m]. destruct (dle dmax m) eqn:E; [now left|].
  destruct S as [[_ ->]|Is]; [rewrite dmax_refl in E; discriminate|].
  destruct (inv_hist g I) as (HN & HB & HX).
  destruct (best_points_spec (g_hist g)) as [[Eb _]|(b & Mb & Lb & Cb & _ & Eb)]; [rewrite Eb in Is; contradiction|].
  rewrite Eb in Is. apply filter_In in Is as [Ls Bs]. apply in_seq in Ls. apply Z.eqb_eq in Bs.
  assert (Ls' : s < total) by lia.
  assert (Ps : planar s = true). { destruct (planar s) eqn:P; auto. rewrite (HX s Ls' P) in Bs. lia. }
  destruct (grow_at_ok s g I Ls' Ps) as (g' & Eg & I' & K & D).
  { rewrite Bs, Nat2Z.id. exact Cb. }
  right. exists g'. rewrite Eg. auto.
Qed.

Lemma grow_ok fuel : forall g, Inv g -> hsum (g_hist g) < fuel ->
  exists g', grow H V planar mse can_merge min_seeds min_cells fit_ok score_high cylinder_fit plane_better fuel g = Ret g' /\ Inv g' /\ keeps g g' /\
   turn H V planar mse can_merge min_seeds min_cells fit_ok score_high cylinder_fit plane_better g' = Ret None.
Proof.
  induction fuel as [|fuel IH]; intros g I L; [lia|]. cbn [grow]. destruct (turn_ok g I) as [E0|(g1 & -> & I1 & K1 & D)]; [rewrite E0|]; cbn [bind].
  - exists g. split; [reflexivity|]. split; [exact I|]. split; [apply keeps_refl|]. assumption.
  - destruct (IH g1 I1) as (g' & E & I' & K' & T); [lia|]. exists g'. split; auto. split; auto. split; auto. eapply keeps_trans; eauto.
Qed.

Lemma g_init_ok :
  (forall i, i < total -> planar i = true -> bin i < hist_size) ->
  exists g, g_init H V planar bin = Ret g /\ Inv g /\ hsum (g_hist g) = count_if planar total /\
    (forall i, g_free g i = (Nat.ltb i total && planar i)%bool) /\ g_planes g = [] /\ (forall i, g_label g i = 0) /\ g_map g = [].
Proof.
  intros B. unfold g_init. set (mask := fun i => Nat.ltb i total && planar i).
  destruct (init_spec total mask bin) as (h & E & N & Bi & C).
  { intros i L M. apply andb_prop in M as [_ M]. auto. }
  rewrite E. cbn [bind]. eexists. split; [reflexivity|]. split; [|split; [|cbn; auto]].
  - assert (Mp : forall i, i < total -> mask i = planar i). { intros i L. unfold mask. destruct (Nat.ltb_spec i total); [reflexivity|lia]. }
    constructor; cbn [g_hist g_free g_untried].
    + split; [exact N|]. split; intros i L P; rewrite Bi, (Mp i L), P; destruct (Nat.ltb_spec i total); cbn [andb]; try lia. specialize (B i L P). lia.
    + intros i M. apply andb_prop in M as [M P]. apply Nat.ltb_lt in M. auto.
    + rewrite (count_ext mask planar) by exact Mp. assert (X := count_bound planar total). apply Z.mod_small. lia.
    + constructor; cbn; auto; try (intros; lia). intros k cells K. destruct k; discriminate.
  - cbn [g_hist]. unfold hsum. rewrite (sum_ext _ (fun b => length (filter (fun i => planar i && Nat.eqb (bin i) b) (seq 0 total)))).
    + apply sum_counts. intros i I. apply in_seq in I. apply B. lia.
    + intros b _. rewrite C. unfold count_if. f_equal. apply filter_len_ext. intros i I. apply in_seq in I. unfold mask.
      destruct (Nat.ltb_spec i total); [reflexivity|lia].
Qed.
End Grow.
