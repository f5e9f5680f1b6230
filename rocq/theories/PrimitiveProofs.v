(** Proofs about PrimitiveModel.v: histogram, region growing, growth loop. *)
From Coq Require Import ZifyBool ZifyNat Permutation.
From Verif Require Import PrimitiveModel PrimitiveSpec.
Import ListNotations.

Lemma set_eq {A} (f : nat -> A) i v : set f i v i = v.
Proof. unfold set. now rewrite Nat.eqb_refl. Qed.
Lemma set_neq {A} (f : nat -> A) i j v : j <> i -> set f i v j = f j.
Proof. unfold set. intros N. destruct (Nat.eqb_spec j i); congruence. Qed.

(** ** Counting *)
Lemma filter_all {A} (f : A -> bool) l : (forall x, In x l -> f x = true) -> filter f l = l.
Proof. induction l as [|a l IH]; intros E; [reflexivity|]. cbn. rewrite E by now left. f_equal. apply IH. intros x X. apply E. now right. Qed.
Lemma filter_none {A} (f : A -> bool) l : (forall x, In x l -> f x = false) -> filter f l = [].
Proof. induction l as [|a l IH]; intros E; [reflexivity|]. cbn. rewrite E by now left. apply IH. intros x X. apply E. now right. Qed.
Lemma filter_len_le {A} (f g : A -> bool) l : (forall x, In x l -> f x = true -> g x = true) -> length (filter f l) <= length (filter g l).
Proof.
  induction l as [|a l IH]; intros E; [apply le_n|]. cbn.
  assert (IH' := IH (fun x X => E x (or_intror X))). assert (Ea := E a (or_introl eq_refl)).
  destruct (f a), (g a); cbn; lia || (now specialize (Ea eq_refl)).
Qed.
Lemma filter_len_ext {A} (f g : A -> bool) l : (forall x, In x l -> f x = g x) -> filter f l = filter g l.
Proof. intros E. induction l as [|a l IH]; [reflexivity|]. cbn. rewrite (E a) by now left. rewrite IH; [reflexivity|]. intros x X. apply E. now right. Qed.
(** changing one value *)
Lemma filter_len_flip {A} (eqd : A -> A -> bool) (f g : A -> bool) l a :
  (forall x y, eqd x y = true <-> x = y) -> NoDup l -> In a l -> f a = true -> g a = false -> (forall x, In x l -> x <> a -> g x = f x) ->
  length (filter f l) = S (length (filter g l)).
Proof.
  intros D. induction l as [|b l IH]; intros N I Fa Ga E; [contradiction|].
  assert (Nb := NoDup_cons_iff b l). destruct (proj1 Nb N) as [Nb1 Nb2]. destruct I as [->|I].
  - cbn. rewrite Fa, Ga. cbn. f_equal. f_equal. apply filter_len_ext. intros x X. symmetry. apply E; [now right|]. intros ->. contradiction.
  - assert (Eb : g b = f b) by (apply E; [now left|intros ->; contradiction]).
    assert (IH' := IH Nb2 I Fa Ga (fun x X => E x (or_intror X))). cbn. rewrite Eb. destruct (f b); cbn; lia.
Qed.
Lemma nat_eqb_iff x y : Nat.eqb x y = true <-> x = y.
Proof. apply Nat.eqb_eq. Qed.
Lemma count_flip (f g : nat -> bool) n a :
  a < n -> f a = true -> g a = false -> (forall x, x < n -> x <> a -> g x = f x) -> count_if f n = S (count_if g n).
Proof.
  intros L Fa Ga E. unfold count_if. apply (filter_len_flip Nat.eqb f g (seq 0 n) a nat_eqb_iff); auto using seq_NoDup.
  - apply in_seq. lia.
  - intros x X. apply E. apply in_seq in X. lia.
Qed.
Lemma count_ext (f g : nat -> bool) n : (forall x, x < n -> f x = g x) -> count_if f n = count_if g n.
Proof. intros E. unfold count_if. f_equal. apply filter_len_ext. intros x X. apply E. apply in_seq in X. lia. Qed.
Lemma count_le (f g : nat -> bool) n : (forall x, x < n -> f x = true -> g x = true) -> count_if f n <= count_if g n.
Proof. intros E. unfold count_if. apply filter_len_le. intros x X. apply E. apply in_seq in X. lia. Qed.
Lemma count_bound (f : nat -> bool) n : count_if f n <= n.
Proof.
  unfold count_if. rewrite <- (seq_length n 0) at 2. generalize (seq 0 n). intros l.
  induction l as [|a l IH]; [apply le_n|]. cbn. destruct (f a); cbn; lia.
Qed.

(** ** Histogram *)

Lemma init_loop_spec mask bin is h :
  NoDup is ->
  match init_loop mask bin is h with
  | Ret h' =>
      h_n h' = h_n h /\
      (forall i, h_bins h' i = if existsb (Nat.eqb i) is && mask i then Z.of_nat (bin i) else h_bins h i) /\
      (forall b, h_count h' b = h_count h b + length (filter (fun i => mask i && Nat.eqb (bin i) b) is)) /\
      (forall i, In i is -> mask i = true -> bin i < hist_size)
  | Undef => exists i, In i is /\ mask i = true /\ hist_size <= bin i
  | OutOfFuel => False
  end.
Proof.
  revert h. induction is as [|i is IH]; intros h N.
  - cbn. repeat split; auto; intros; try contradiction; lia.
  - destruct (proj1 (NoDup_cons_iff i is) N) as [Ni N']. cbn [init_loop]. destruct (mask i) eqn:M.
    + destruct (Nat.ltb_spec (bin i) hist_size) as [L|L].
      * set (h1 := mkHist _ _ _). specialize (IH h1 N'). destruct (init_loop mask bin is h1) as [h'| |]; [|destruct IH as (j & J & K); exists j; split; auto; now right|exact IH].
        destruct IH as (A & B & C & D). repeat split.
        -- now rewrite A.
        -- intros j. rewrite B. cbn [existsb h_bins h1]. destruct (Nat.eqb_spec j i) as [->|E].
           ++ rewrite M, set_eq. cbn. destruct (existsb (Nat.eqb i) is); reflexivity.
           ++ rewrite set_neq by auto. reflexivity.
        -- intros b. rewrite C. cbn [filter h_count h1]. rewrite M. cbn [andb]. destruct (Nat.eqb_spec (bin i) b) as [<-|E].
           ++ rewrite set_eq. cbn. lia.
           ++ rewrite set_neq by auto. reflexivity.
        -- intros j [<-|J]; auto.
      * exists i. split; [now left|auto].
    + specialize (IH h N'). destruct (init_loop mask bin is h) as [h'| |]; [|destruct IH as (j & J & K); exists j; split; auto; now right|exact IH].
      destruct IH as (A & B & C & D). repeat split; auto.
      * intros j. rewrite B. cbn [existsb]. destruct (Nat.eqb_spec j i) as [->|E]; [|reflexivity]. rewrite M, !andb_false_r. reflexivity.
      * intros b. rewrite C. cbn [filter]. rewrite M. reflexivity.
      * intros j [<-|J]; [congruence|auto].
Qed.

Lemma existsb_eqb i l : existsb (Nat.eqb i) l = true <-> In i l.
Proof.
  rewrite existsb_exists. split; [intros (x & X & E); apply Nat.eqb_eq in E; now subst|intros I; exists i; split; auto; apply Nat.eqb_refl].
Qed.
Lemma existsb_seq i n : existsb (Nat.eqb i) (seq 0 n) = Nat.ltb i n.
Proof.
  destruct (Nat.ltb_spec i n) as [L|L].
  - apply existsb_eqb, in_seq. lia.
  - apply not_true_is_false. rewrite existsb_eqb, in_seq. lia.
Qed.

Lemma init_spec n mask bin :
  (forall i, i < n -> mask i = true -> bin i < hist_size) ->
  exists h, init_histogram n mask bin = Ret h /\ h_n h = n /\
    (forall i, h_bins h i = if Nat.ltb i n && mask i then Z.of_nat (bin i) else (-1)%Z) /\
    (forall b, h_count h b = count_if (fun i => mask i && Nat.eqb (bin i) b) n).
Proof.
  intros B. unfold init_histogram. set (h0 := mkHist _ _ _). assert (S := init_loop_spec mask bin (seq 0 n) h0 (seq_NoDup _ _)).
  destruct (init_loop mask bin (seq 0 n) h0) as [h| |].
  - destruct S as (S1 & S2 & S3 & _). exists h. repeat split; auto. intros i. rewrite S2, existsb_seq. reflexivity.
  - destruct S as (i & I & M & L). apply in_seq in I. specialize (B i ltac:(lia) M). lia.
  - contradiction.
Qed.
Lemma init_undef n mask bin i : i < n -> mask i = true -> hist_size <= bin i -> init_histogram n mask bin = Undef.
Proof.
  intros L M B. unfold init_histogram. set (h0 := mkHist _ _ _). assert (S := init_loop_spec mask bin (seq 0 n) h0 (seq_NoDup _ _)).
  destruct (init_loop mask bin (seq 0 n) h0) as [h| |]; [|reflexivity|contradiction].
  destruct S as (_ & _ & _ & S). specialize (S i ltac:(apply in_seq; lia) M). lia.
Qed.

Lemma most_frequent_loop_spec h is best most :
  (most_frequent_loop h is best most = best /\ forall i, In i is -> h_count h i <= most) \/
  (exists i, most_frequent_loop h is best most = Z.of_nat i /\ In i is /\ most < h_count h i /\ forall j, In j is -> h_count h j <= h_count h i).
Proof.
  revert best most. induction is as [|a is IH]; intros best most; [left; split; auto; intros i []|].
  cbn [most_frequent_loop]. destruct (Nat.ltb_spec most (h_count h a)) as [L|L].
  - right. destruct (IH (Z.of_nat a) (h_count h a)) as [[E F]|(i & E & I & M & F)].
    + exists a. repeat split; auto; [now left|]. intros j [<-|J]; auto.
    + exists i. repeat split; auto; [now right|lia|]. intros j [<-|J]; [lia|auto].
  - destruct (IH best most) as [[E F]|(i & E & I & M & F)].
    + left. split; auto. intros j [<-|J]; auto.
    + right. exists i. repeat split; auto; [now right|]. intros j [<-|J]; [lia|auto].
Qed.

(** the most frequent bin, when there is one, is in range, not empty and maximal *)
Lemma most_frequent_spec h :
  (most_frequent h = (-1)%Z /\ forall i, i < hist_size -> h_count h i = 0) \/
  (exists i, most_frequent h = Z.of_nat i /\ i < hist_size /\ 0 < h_count h i /\ forall j, j < hist_size -> h_count h j <= h_count h i).
Proof.
  unfold most_frequent. destruct (most_frequent_loop_spec h (seq 0 hist_size) (-1)%Z 0) as [[E F]|(i & E & I & M & F)].
  - left. split; auto. intros i L. specialize (F i). rewrite in_seq in F. lia.
  - right. apply in_seq in I. exists i. repeat split; auto; [lia|]. intros j L. apply F, in_seq. lia.
Qed.
Lemma best_points_spec h :
  (best_points h = [] /\ forall i, i < hist_size -> h_count h i = 0) \/
  (exists b, most_frequent h = Z.of_nat b /\ b < hist_size /\ 0 < h_count h b /\ (forall j, j < hist_size -> h_count h j <= h_count h b) /\
    best_points h = filter (fun i => (h_bins h i =? Z.of_nat b)%Z) (seq 0 (h_n h))).
Proof.
  unfold best_points. destruct (most_frequent_spec h) as [[E F]|(i & E & I & M & F)].
  - left. rewrite E. auto.
  - right. exists i. repeat split; auto. rewrite E. destruct (Z.leb_spec 0 (Z.of_nat i)); [reflexivity|lia].
Qed.

(** ** Removal *)
Lemma remove_point_spec p h :
  p < h_n h -> (0 <= h_bins h p < Z.of_nat hist_size)%Z ->
  exists h', remove_point p h = Ret h' /\ h_n h' = h_n h /\
    (forall i, h_bins h' i = if Nat.eqb i p then 1%Z else h_bins h i) /\
    (forall b, h_count h' b = if Nat.eqb b (Z.to_nat (h_bins h p)) then pred (h_count h b) else h_count h b).
Proof.
  intros L B. unfold remove_point. destruct (Nat.leb_spec (h_n h) p) as [?|_]; [lia|].
  destruct (Z.ltb_spec (h_bins h p) 0) as [?|_]; [lia|]. destruct (Z.leb_spec (Z.of_nat hist_size) (h_bins h p)) as [?|_]; [lia|].
  cbn [orb]. eexists. split; [reflexivity|]. cbn [h_n h_bins h_count]. repeat split.
  intros b. destruct (Nat.eqb_spec (h_count h (Z.to_nat (h_bins h p))) 0) as [Z|Z].
  - destruct (Nat.eqb_spec b (Z.to_nat (h_bins h p))) as [->|E]; [now rewrite Z|reflexivity].
  - unfold set. destruct (Nat.eqb_spec b (Z.to_nat (h_bins h p))) as [->|E]; reflexivity.
Qed.

(** ** Region growing *)
Section Region.
Variables H V : nat.
Variable can_merge : nat -> nat -> bool.
Notation total := (PrimitiveModel.total H V).
Notation adjacent := (PrimitiveSpec.adjacent H V).
Implicit Types (i j k x y from : nat) (a free active : nat -> bool).

Lemma coord x y : x < H -> (x + H * y) mod H = x /\ (x + H * y) / H = y.
Proof.
  intros L. split.
  - rewrite Nat.mul_comm, Nat.mod_add by lia. now apply Nat.mod_small.
  - rewrite Nat.mul_comm, Nat.div_add by lia. now rewrite Nat.div_small.
Qed.
Lemma coord_lt x y : x < H -> y < V -> x + H * y < total.
Proof. unfold PrimitiveModel.total. intros. nia. Qed.
Lemma coord_of i : i < total -> i mod H < H /\ i / H < V /\ i = i mod H + H * (i / H).
Proof.
  unfold PrimitiveModel.total. intros L. assert (H <> 0) by (intros ->; cbn in L; lia). repeat split.
  - now apply Nat.mod_upper_bound.
  - apply Nat.div_lt_upper_bound; auto.
  - rewrite Nat.add_comm. now apply Nat.div_mod.
Qed.
(** the neighbours of a cell are the ones visited *)
Lemma adjacent_cases x y k :
  x < H -> y < V -> adjacent (x + H * y) k ->
  (0 < x /\ k = (x - 1) + H * y) \/ (x < H - 1 /\ k = (x + 1) + H * y) \/ (0 < y /\ k = x + H * (y - 1)) \/ (y < V - 1 /\ k = x + H * (y + 1)).
Proof.
  intros Lx Ly (_ & Lk & A). destruct (coord x y Lx) as [Ex Ey]. rewrite Ex, Ey in A. destruct (coord_of k Lk) as (Kx & Ky & Ek).
  set (kx := k mod H) in *. set (ky := k / H) in *. clearbody kx ky. subst k.
  destruct A as [[E [F|F]]|[E [F|F]]].
  - left. split; [lia|]. subst ky x. f_equal. lia.
  - right. left. split; [lia|]. subst ky kx. f_equal. lia.
  - right. right. left. split; [lia|]. subst kx y. f_equal. f_equal. lia.
  - right. right. right. split; [lia|]. subst kx ky. f_equal. f_equal. lia.
Qed.
Lemma adjacent_left x y : x < H -> y < V -> 0 < x -> adjacent (x + H * y) ((x - 1) + H * y).
Proof.
  intros A B C. repeat split; try (apply coord_lt; lia). destruct (coord x y A) as [-> ->]. destruct (coord (x - 1) y ltac:(lia)) as [-> ->].
  left. split; [reflexivity|left; lia].
Qed.
Lemma adjacent_right x y : x < H -> y < V -> x < H - 1 -> adjacent (x + H * y) ((x + 1) + H * y).
Proof.
  intros A B C. repeat split; try (apply coord_lt; lia). destruct (coord x y A) as [-> ->]. destruct (coord (x + 1) y ltac:(lia)) as [-> ->].
  left. split; [reflexivity|right; lia].
Qed.
Lemma adjacent_up x y : x < H -> y < V -> 0 < y -> adjacent (x + H * y) (x + H * (y - 1)).
Proof.
  intros A B C. repeat split; try (apply coord_lt; lia). destruct (coord x y A) as [-> ->]. destruct (coord x (y - 1) A) as [-> ->].
  right. split; [reflexivity|left; lia].
Qed.
Lemma adjacent_down x y : x < H -> y < V -> y < V - 1 -> adjacent (x + H * y) (x + H * (y + 1)).
Proof.
  intros A B C. repeat split; try (apply coord_lt; lia). destruct (coord x y A) as [-> ->]. destruct (coord x (y + 1) A) as [-> ->].
  right. split; [reflexivity|right; lia].
Qed.

Variable free : nat -> bool.
Notation entry := (PrimitiveSpec.entry can_merge free).
Notation reach := (PrimitiveSpec.reach H V can_merge free).
Definition closed_under (R : nat -> Prop) : Prop := forall j k, R j -> adjacent j k -> entry j k -> R k.
Definition unvisited active : nat := count_if (fun i => free i && negb (active i)) total.

(** from [active] to [a'], possibly entering [i] from [from] *)
Record good (from i : nat) (active a' : nat -> bool) : Prop := {
  good_mono : forall j, active j = true -> a' j = true;
  good_new : forall j, a' j = true -> active j = true \/ (j < total /\ free j = true);
  good_closed : forall j k, a' j = true -> active j = false -> adjacent j k -> entry j k -> a' k = true;
  good_sound : forall R : nat -> Prop, closed_under R -> (entry from i -> R i) -> forall j, a' j = true -> active j = true \/ R j
}.
Lemma good_refl from i active : good from i active active.
Proof. constructor; auto. intros j k A B. congruence. Qed.
Lemma unvisited_mono active a : (forall j, active j = true -> a j = true) -> unvisited a <= unvisited active.
Proof. intros M. apply count_le. intros x L E. specialize (M x). destruct (free x), (active x), (a x); cbn in *; auto; now specialize (M eq_refl). Qed.

Lemma region_good fuel :
  forall x y from active, x < H -> y < V -> unvisited active < fuel ->
  exists a', region H V can_merge fuel free x y from active = Ret a' /\ good from (x + H * y) active a' /\
             (entry from (x + H * y) -> a' (x + H * y) = true).
Proof.
  induction fuel as [|fuel IH]; intros x y from active Lx Ly U; [lia|].
  cbn [region]. set (i := x + H * y). assert (Li : i < total) by now apply coord_lt.
  destruct (Nat.leb_spec total i) as [?|_]; [lia|].
  destruct (free i) eqn:F; cbn [negb orb].
  2:{ exists active. split; [reflexivity|]. split; [apply good_refl|]. intros [E _]. congruence. }
  destruct (active i) eqn:A; cbn [orb].
  { exists active. split; [reflexivity|]. split; [apply good_refl|auto]. }
  destruct (can_merge from i) eqn:C.
  2:{ exists active. split; [reflexivity|]. split; [apply good_refl|]. intros [_ E]. congruence. }
  set (a0 := set active i true).
  assert (U0 : unvisited a0 < fuel).
  { assert (unvisited active = S (unvisited a0)); [|lia]. apply count_flip with (a := i); auto.
    - now rewrite F, A.
    - unfold a0. now rewrite set_eq, andb_false_r.
    - intros z _ N. unfold a0. now rewrite set_neq. }
  assert (M0 : forall j, active j = true -> a0 j = true). { intros j J. unfold a0, set. destruct (Nat.eqb_spec j i); auto. }
  (* a step to a neighbour *)
  assert (Step : forall (b : bool) x' y' a,
     (forall j, a0 j = true -> a j = true) -> (b = true -> x' < H /\ y' < V) ->
     exists a', (if b then region H V can_merge fuel free x' y' i a else Ret a) = Ret a' /\
       good i (x' + H * y') a a' /\ (b = true -> entry i (x' + H * y') -> a' (x' + H * y') = true) /\
       (forall j, a0 j = true -> a' j = true) /\
       (b = false -> a' = a)).
  { intros b x' y' a Ma B. destruct b.
    - destruct (B eq_refl) as [B1 B2]. destruct (IH x' y' i a B1 B2) as (a' & E & G & T).
      { assert (V' := unvisited_mono a0 a Ma). lia. }
      exists a'. split; [exact E|]. split; [exact G|]. split; [auto|]. split; [|discriminate]. intros j J. apply (good_mono _ _ _ _ G). auto.
    - exists a. split; [reflexivity|]. split; [apply good_refl|]. split; [discriminate|]. split; auto. }
  destruct (Step (Nat.ltb 0 x) (x - 1) y a0 (fun j J => J)) as (a1 & E1 & G1 & T1 & M1 & S1); [intros B; apply Nat.ltb_lt in B; lia|].
  rewrite E1. cbn [bind].
  destruct (Step (Nat.ltb x (H - 1)) (x + 1) y a1 M1) as (a2 & E2 & G2 & T2 & M2 & S2); [intros B; apply Nat.ltb_lt in B; lia|].
  rewrite E2. cbn [bind].
  destruct (Step (Nat.ltb 0 y) x (y - 1) a2 M2) as (a3 & E3 & G3 & T3 & M3 & S3); [intros B; apply Nat.ltb_lt in B; lia|].
  rewrite E3. cbn [bind].
  destruct (Step (Nat.ltb y (V - 1)) x (y + 1) a3 M3) as (a4 & E4 & G4 & T4 & M4 & S4); [intros B; apply Nat.ltb_lt in B; lia|].
  rewrite E4. clear Step E1 E2 E3 E4. exists a4. split; [reflexivity|].
  assert (m1 := good_mono _ _ _ _ G1). assert (m2 := good_mono _ _ _ _ G2). assert (m3 := good_mono _ _ _ _ G3). assert (m4 := good_mono _ _ _ _ G4).
  assert (Ia : a4 i = true). { apply M4. unfold a0. apply set_eq. }
  split; [|auto]. constructor.
  - intros j J. apply M4, M0, J.
  - intros j J.
    destruct (good_new _ _ _ _ G4 j J) as [J3|]; [|auto]. destruct (good_new _ _ _ _ G3 j J3) as [J2|]; [|auto].
    destruct (good_new _ _ _ _ G2 j J2) as [J1|]; [|auto]. destruct (good_new _ _ _ _ G1 j J1) as [J0|]; [|auto].
    unfold a0, set in J0. destruct (Nat.eqb_spec j i) as [->|]; auto.
  - intros j k J NJ Adj En. destruct (Nat.eq_dec j i) as [->|Nj].
    + destruct (adjacent_cases x y k Lx Ly Adj) as [[B ->]|[[B ->]|[[B ->]|[B ->]]]].
      * apply m4, m3, m2, T1; auto. now apply Nat.ltb_lt.
      * apply m4, m3, T2; auto. now apply Nat.ltb_lt.
      * apply m4, T3; auto. now apply Nat.ltb_lt.
      * apply T4; auto. now apply Nat.ltb_lt.
    + assert (N0 : a0 j = false) by (unfold a0; rewrite set_neq; auto).
      destruct (a3 j) eqn:J3; [|apply (good_closed _ _ _ _ G4 j k); auto].
      destruct (a2 j) eqn:J2; [|apply m4, (good_closed _ _ _ _ G3 j k); auto].
      destruct (a1 j) eqn:J1; [|apply m4, m3, (good_closed _ _ _ _ G2 j k); auto].
      apply m4, m3, m2, (good_closed _ _ _ _ G1 j k); auto.
  - intros R Cl Ri j J. assert (Ri' : R i) by now apply Ri.
    assert (step1 : 0 < x -> entry i ((x - 1) + H * y) -> R ((x - 1) + H * y)). { intros B En. apply (Cl i); auto. apply adjacent_left; auto. }
    assert (step2 : x < H - 1 -> entry i ((x + 1) + H * y) -> R ((x + 1) + H * y)). { intros B En. apply (Cl i); auto. apply adjacent_right; auto. }
    assert (step3 : 0 < y -> entry i (x + H * (y - 1)) -> R (x + H * (y - 1))). { intros B En. apply (Cl i); auto. apply adjacent_up; auto. }
    assert (step4 : y < V - 1 -> entry i (x + H * (y + 1)) -> R (x + H * (y + 1))). { intros B En. apply (Cl i); auto. apply adjacent_down; auto. }
    assert (K4 : a3 j = true \/ R j). { destruct (Nat.ltb_spec y (V - 1)) as [B|B]; [apply (good_sound _ _ _ _ G4 R Cl); auto|left; rewrite <- S4; auto]. }
    destruct K4 as [J3|]; [|auto].
    assert (K3 : a2 j = true \/ R j). { destruct (Nat.ltb_spec 0 y) as [B|B]; [apply (good_sound _ _ _ _ G3 R Cl); auto|left; rewrite <- S3; auto]. }
    destruct K3 as [J2|]; [|auto].
    assert (K2 : a1 j = true \/ R j). { destruct (Nat.ltb_spec x (H - 1)) as [B|B]; [apply (good_sound _ _ _ _ G2 R Cl); auto|left; rewrite <- S2; auto]. }
    destruct K2 as [J1|]; [|auto].
    assert (K1 : a0 j = true \/ R j). { destruct (Nat.ltb_spec 0 x) as [B|B]; [apply (good_sound _ _ _ _ G1 R Cl); auto|left; rewrite <- S1; auto]. }
    destruct K1 as [J0|]; [|auto]. unfold a0, set in J0. destruct (Nat.eqb_spec j i) as [->|]; auto.
Qed.

Lemma region_exact seed :
  seed < total ->
  exists a, region H V can_merge (S total) free (seed mod H) (seed / H) seed (fun _ => false) = Ret a /\
    forall j, a j = true <-> reach seed j.
Proof.
  intros L. destruct (coord_of seed L) as (X & Y & E).
  destruct (region_good (S total) (seed mod H) (seed / H) seed (fun _ => false) X Y) as (a & Ea & G & T).
  { unfold unvisited. assert (B := count_bound (fun i => free i && negb false) total). lia. }
  exists a. split; [exact Ea|]. rewrite <- E in G, T. intros j. split.
  - intros J. destruct (good_sound _ _ _ _ G (reach seed)) with (j := j) as [F|R]; auto; [|intros En; now apply reach_seed|discriminate].
    intros u v Ru Ad En. now apply reach_step with u.
  - intros R. induction R as [L' En|u v R IH Ad En]; [now apply T|]. apply (good_closed _ _ _ _ G u v); auto.
Qed.
Lemma reach_inside seed j : reach seed j -> j < total /\ free j = true.
Proof. intros R. destruct R as [L En|u v R Ad En]; split; try apply En; auto. apply Ad. Qed.
End Region.
