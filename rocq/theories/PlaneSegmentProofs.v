(** Proofs about the plane segments. *)
From Verif Require Import PlaneSegmentModel PlaneSegmentSpec.
Local Open Scope R_scope.

Lemma sums_eq a b :
  s_n a = s_n b -> s_x a = s_x b -> s_y a = s_y b -> s_z a = s_z b -> s_xx a = s_xx b -> s_yy a = s_yy b -> s_zz a = s_zz b ->
  s_xy a = s_xy b -> s_yz a = s_yz b -> s_zx a = s_zx b -> a = b.
Proof. destruct a, b; cbn. now intros -> -> -> -> -> -> -> -> -> ->. Qed.

(** sums written as sums over the valid points *)
Definition sums_of (l : list vec) : sums :=
  mkSums (length l) (rsum vx l) (rsum vy l) (rsum vz l) (rsum (fun p => vx p * vx p) l) (rsum (fun p => vy p * vy p) l)
    (rsum (fun p => vz p * vz p) l) (rsum (fun p => vx p * vy p) l) (rsum (fun p => vy p * vz p) l) (rsum (fun p => vx p * vz p) l).

Lemma expand_assoc a b c : expand (expand a b) c = expand a (expand b c).
Proof. apply sums_eq; cbn; try ring. Qed.
Lemma expand_comm a b : expand a b = expand b a.
Proof. apply sums_eq; cbn; try ring. Qed.
Lemma expand_0 a : expand no_sums a = a.
Proof. apply sums_eq; cbn; try ring. Qed.
Lemma add_point_expand s p : add_point s p = expand s (sums_of (filter positive [p])).
Proof.
  unfold add_point, filter, positive. destruct (Rlt_dec 0 (vz p)); apply sums_eq; cbn; try ring; try lia.
Qed.
Lemma sums_of_app a b : sums_of (a ++ b) = expand (sums_of a) (sums_of b).
Proof. unfold sums_of. apply sums_eq; cbn; rewrite ?rsum_app, ?app_length; reflexivity. Qed.
Lemma accumulate_from l s : fold_left add_point l s = expand s (sums_of (valid l)).
Proof.
  revert s. induction l as [|p l IH]; intros s.
  - cbn [fold_left valid filter]. rewrite expand_comm. change (sums_of []) with no_sums. now rewrite expand_0.
  - cbn [fold_left]. rewrite IH, add_point_expand. unfold valid. change (p :: l) with ([p] ++ l).
    rewrite filter_app, sums_of_app, expand_assoc. reflexivity.
Qed.
Lemma accumulate_valid l : accumulate l = sums_of (valid l).
Proof. unfold accumulate. now rewrite accumulate_from, expand_0. Qed.
Lemma accumulate_app a b : accumulate (a ++ b) = expand (accumulate a) (accumulate b).
Proof. rewrite !accumulate_valid. unfold valid. now rewrite filter_app, sums_of_app. Qed.
Lemma sums_of_perm a b : Permutation a b -> sums_of a = sums_of b.
Proof.
  intros P. unfold sums_of. apply sums_eq; cbn; try (apply rsum_perm; assumption). now apply Permutation_length.
Qed.
Lemma filter_perm {A} (f : A -> bool) a b : Permutation a b -> Permutation (filter f a) (filter f b).
Proof.
  induction 1; cbn; [constructor|destruct (f x); [now constructor|assumption]| |now transitivity (filter f l')].
  destruct (f x), (f y); try constructor; reflexivity.
Qed.

(** ** Scatter *)
Lemma mean_x l : vx (mean l) = rsum vx l / INR (length l).
Proof. unfold mean, vscal. cbn [vx]. rewrite (vsum_x (fun p => p)). apply Rmult_comm. Qed.
Lemma mean_y l : vy (mean l) = rsum vy l / INR (length l).
Proof. unfold mean, vscal. cbn [vy]. rewrite (vsum_y (fun p => p)). apply Rmult_comm. Qed.
Lemma mean_z l : vz (mean l) = rsum vz l / INR (length l).
Proof. unfold mean, vscal. cbn [vz]. rewrite (vsum_z (fun p => p)). apply Rmult_comm. Qed.
Lemma INR_len {A} (l : list A) : l <> [] -> INR (length l) <> 0 /\ 0 < INR (length l).
Proof.
  intros H. destruct l; [congruence|]. cbn [length]. pose proof (lt_0_INR (S (length l)) ltac:(lia)). lra.
Qed.
Lemma deviations (f g : vec -> R) (l : list vec) (mf mg : R) :
  l <> [] -> mf = rsum f l / INR (length l) -> mg = rsum g l / INR (length l) ->
  rsum (fun p => (f p - mf) * (g p - mg)) l = rsum (fun p => f p * g p) l - rsum f l * rsum g l * (1 / INR (length l)).
Proof.
  intros N Hf Hg. destruct (INR_len l N) as [N0 _].
  transitivity (rsum (fun p => f p * g p - mg * f p - mf * g p + mf * mg) l).
  { apply rsum_ext. intros p _. ring. }
  rewrite rsum_plus, !rsum_minus, !rsum_scal, rsum_const, Hf, Hg. field. assumption.
Qed.
Lemma Rmax_pos_id x : 0 <= x -> Rmax 0 x = x.
Proof. intros. now apply Rmax_right. Qed.

Lemma scatter_sums l : l <> [] -> scatter (sums_of l) = scatter_of l.
Proof.
  intros N. unfold scatter, scatter_of. cbn [sums_of s_n s_x s_y s_z s_xx s_yy s_zz s_xy s_yz s_zx].
  pose proof (deviations vx vx l _ _ N (mean_x l) (mean_x l)) as Exx.
  pose proof (deviations vy vy l _ _ N (mean_y l) (mean_y l)) as Eyy.
  pose proof (deviations vz vz l _ _ N (mean_z l) (mean_z l)) as Ezz.
  pose proof (deviations vx vy l _ _ N (mean_x l) (mean_y l)) as Exy.
  pose proof (deviations vx vz l _ _ N (mean_x l) (mean_z l)) as Exz.
  pose proof (deviations vy vz l _ _ N (mean_y l) (mean_z l)) as Eyz.
  rewrite <- Exx, <- Eyy, <- Ezz, <- Exy, <- Exz, <- Eyz.
  rewrite !Rmax_pos_id by (apply rsum_nonneg; intros; apply Rle_0_sqr).
  apply mat_eq; apply vec_eq; cbn [r0 r1 r2 vx vy vz]; try reflexivity; apply rsum_ext; intros p _; unfold vsub; cbn; ring.
Qed.

Lemma quad_scatter l v : quad (scatter_of l) v = rsum (fun p => dot v (vsub p (mean l)) * dot v (vsub p (mean l))) l.
Proof.
  unfold scatter_of, quad, mvmul. set (m := mean l). generalize m. clear m. intros m.
  induction l as [|p l IH].
  - unfold dot, rsum. cbn. ring.
  - rewrite (rsum_cons (fun p => dot v (vsub p m) * dot v (vsub p m))), <- IH. cbn [r0 r1 r2]. unfold dot. cbn [vx vy vz]. rewrite !rsum_cons. unfold vsub. cbn [vx vy vz]. ring.
Qed.

(** ** Fit *)
Lemma mean_centered l v : l <> [] -> rsum (fun p => dot v (vsub p (mean l))) l = 0.
Proof.
  intros N. destruct (INR_len l N) as [N0 _].
  transitivity (rsum (fun p => dot v p - dot v (mean l)) l).
  { apply rsum_ext. intros. apply dot_sub_r. }
  rewrite rsum_minus, rsum_const. unfold mean. rewrite dot_scal_r, (dot_vsum (fun p => p)). cbv beta.
  set (X := rsum (fun p => dot v p) l). change (rsum (fun a => dot v a) l) with X. field. assumption.
Qed.
Lemma squared_distances_eq n d l : l <> [] ->
  squared_distances n d l = quad (scatter_of l) n + INR (length l) * ((dot n (mean l) + d) * (dot n (mean l) + d)).
Proof.
  intros N. rewrite quad_scatter. unfold squared_distances.
  set (k := dot n (mean l) + d).
  transitivity (rsum (fun p => dot n (vsub p (mean l)) * dot n (vsub p (mean l)) + 2 * k * dot n (vsub p (mean l)) + k * k) l).
  { apply rsum_ext. intros p _. unfold k. rewrite dot_sub_r. ring. }
  rewrite !rsum_plus, rsum_scal, mean_centered, rsum_const by assumption. ring.
Qed.

Lemma parseval v v1 v2 x :
  madd (outer v v) (madd (outer v1 v1) (outer v2 v2)) = mid ->
  dot v x * dot v x + dot v1 x * dot v1 x + dot v2 x * dot v2 x = dot x x.
Proof.
  intros E. assert (quad (madd (outer v v) (madd (outer v1 v1) (outer v2 v2))) x = quad mid x) as Q by now rewrite E.
  replace (quad mid x) with (dot x x) in Q by v3ring. rewrite <- Q. v3ring.
Qed.
Lemma quad_diag a b c v v1 v2 x :
  quad (madd (mscal a (outer v v)) (madd (mscal b (outer v1 v1)) (mscal c (outer v2 v2)))) x =
  a * (dot v x * dot v x) + b * (dot v1 x * dot v1 x) + c * (dot v2 x * dot v2 x).
Proof. v3ring. Qed.
Lemma eigen_rayleigh m e n : eigen_of m e -> is_unit n -> vx (e_values e) <= quad m n.
Proof.
  intros [[A B] (v1 & v2 & U & U1 & U2 & O1 & O2 & O3 & I & M)] Un. cbv zeta in *.
  rewrite M, quad_diag. pose proof (parseval _ _ _ n I) as P. rewrite Un in P.
  set (a := dot (e_first e) n) in *. set (b := dot v1 n) in *. set (c := dot v2 n) in *.
  pose proof (Rle_0_sqr a). pose proof (Rle_0_sqr b). pose proof (Rle_0_sqr c). unfold Rsqr in *.
  assert (0 <= (vy (e_values e) - vx (e_values e)) * (b * b)) by (apply Rmult_le_pos; lra).
  assert (0 <= (vz (e_values e) - vx (e_values e)) * (c * c)) by (apply Rmult_le_pos; lra).
  replace (a * a) with (1 - b * b - c * c) by lra. lra.
Qed.
Lemma eigen_first m e : eigen_of m e -> quad m (e_first e) = vx (e_values e).
Proof.
  intros [_ (v1 & v2 & U & U1 & U2 & O1 & O2 & O3 & I & M)]. cbv zeta in *.
  rewrite M, quad_diag. unfold is_unit in *. rewrite U. rewrite (dot_comm v1), (dot_comm v2), O1, O2. ring.
Qed.

(** ** Continuity *)
Lemma scan_iff zs last :
  scan zs last = true <->
  (smooth zs /\ forall j zj, nth_error zs j = Some zj -> 0 < zj -> (forall k zk, (k < j)%nat -> nth_error zs k = Some zk -> zk <= 0) ->
    Rabs (zj - last) <= 4 * quantization zj).
Proof.
  revert last. induction zs as [|z zs IH]; intros last.
  - cbn [scan]. split; [|reflexivity]. intros _. split.
    + intros i j zi zj _ H. destruct i; discriminate.
    + intros j zj H. destruct j; discriminate.
  - cbn [scan]. unfold continuous_step. destruct (Rlt_dec 0 z) as [P|P].
    + destruct (Rle_dec (Rabs (z - last)) (4 * quantization z)) as [Q|Q].
      * rewrite IH. split.
        -- intros [Sm F]. split.
           ++ intros i j zi zj L Ei Ej Pi Pj K. destruct i as [|i].
              ** cbn in Ei. injection Ei as <-. destruct j as [|j]; [lia|]. cbn in Ej. apply (F j zj Ej Pj).
                 intros k zk Lk Ek. apply (K (S k) zk); [lia|exact Ek].
              ** destruct j as [|j]; [lia|]. cbn in Ei, Ej. apply (Sm i j zi zj); auto; [lia|].
                 intros k zk Lk Ek. apply (K (S k) zk); [lia|exact Ek].
           ++ intros j zj Ej Pj K. destruct j as [|j].
              ** cbn in Ej. injection Ej as <-. exact Q.
              ** specialize (K 0%nat z ltac:(lia) eq_refl). lra.
        -- intros [Sm F]. split.
           ++ intros i j zi zj L Ei Ej Pi Pj K. apply (Sm (S i) (S j) zi zj); auto; [lia|].
              intros k zk Lk Ek. destruct k as [|k]; [lia|]. apply (K k zk); [lia|exact Ek].
           ++ intros j zj Ej Pj K. apply (Sm 0%nat (S j) z zj); auto; [lia|].
              intros k zk Lk Ek. destruct k as [|k]; [lia|]. apply (K k zk); [lia|exact Ek].
      * split; [discriminate|]. intros [Sm F]. exfalso. apply Q. apply (F 0%nat z eq_refl P). intros k zk L. lia.
    + rewrite IH. split.
      * intros [Sm F]. split.
        -- intros i j zi zj L Ei Ej Pi Pj K. destruct i as [|i].
           ++ cbn in Ei. injection Ei as <-. lra.
           ++ destruct j as [|j]; [lia|]. cbn in Ei, Ej. apply (Sm i j zi zj); auto; [lia|].
              intros k zk Lk Ek. apply (K (S k) zk); [lia|exact Ek].
        -- intros j zj Ej Pj K. destruct j as [|j].
           ++ cbn in Ej. injection Ej as <-. lra.
           ++ cbn in Ej. apply (F j zj Ej Pj). intros k zk Lk Ek. apply (K (S k) zk); [lia|exact Ek].
      * intros [Sm F]. split.
        -- intros i j zi zj L Ei Ej Pi Pj K. apply (Sm (S i) (S j) zi zj); auto; [lia|].
           intros k zk Lk Ek. destruct k as [|k]; [lia|]. apply (K k zk); [lia|exact Ek].
        -- intros j zj Ej Pj K. apply (F (S j) zj Ej Pj). intros k zk Lk Ek. destruct k as [|k].
           ++ cbn in Ek. injection Ek as <-. lra.
           ++ apply (K k zk); [lia|exact Ek].
Qed.

Lemma indices_eq fuel start stop step n :
  (n <= fuel)%nat -> (forall k, (k < n)%nat -> (start + k * step < stop)%nat) -> (n = fuel \/ stop <= start + n * step)%nat ->
  indices fuel start stop step = map (fun k => start + k * step)%nat (seq 0 n).
Proof.
  revert start n. induction fuel as [|fuel IH]; intros start n L A B.
  - replace n with 0%nat by lia. reflexivity.
  - cbn [indices]. destruct n as [|n].
    + destruct (Nat.ltb_spec start stop) as [C|C]; [|reflexivity]. destruct B as [B|B]; lia.
    + destruct (Nat.ltb_spec start stop) as [C|C]; [|specialize (A 0%nat ltac:(lia)); lia].
      cbn [seq map]. f_equal; [lia|]. rewrite (IH (start + step)%nat n); [|lia| |].
      * rewrite <- seq_shift, map_map. apply map_ext. intros k. lia.
      * intros k Lk. specialize (A (S k) ltac:(lia)). lia.
      * destruct B as [B|B]; [left; lia|right; lia].
Qed.
