(** Vectors and matrices of dimension 3 over the reals, with the usual laws. Not
    part of the model: used to write the geometry of the code and of the
    specifications. *)
From Verif Require Export RealSums.
Local Open Scope R_scope.

(** [vector3] *)
Record vec := mkV { vx : R; vy : R; vz : R }.
Definition v0 : vec := mkV 0 0 0.
Definition vadd (a b : vec) : vec := mkV (vx a + vx b) (vy a + vy b) (vz a + vz b).
Definition vsub (a b : vec) : vec := mkV (vx a - vx b) (vy a - vy b) (vz a - vz b).
Definition vneg (a : vec) : vec := mkV (- vx a) (- vy a) (- vz a).
Definition vscal (k : R) (a : vec) : vec := mkV (k * vx a) (k * vy a) (k * vz a).
Definition dot (a b : vec) : R := vx a * vx b + vy a * vy b + vz a * vz b.
Definition cross (a b : vec) : vec :=
  mkV (vy a * vz b - vz a * vy b) (vz a * vx b - vx a * vz b) (vx a * vy b - vy a * vx b).
Definition sqn (a : vec) : R := dot a a.
Definition norm (a : vec) : R := sqrt (sqn a).
Definition dist (a b : vec) : R := norm (vsub a b).
Definition is_unit (a : vec) : Prop := dot a a = 1.

(** [matrix33], by rows *)
Record mat := mkM3 { r0 : vec; r1 : vec; r2 : vec }.
Definition mvmul (m : mat) (v : vec) : vec := mkV (dot (r0 m) v) (dot (r1 m) v) (dot (r2 m) v).
Definition mT (m : mat) : mat :=
  mkM3 (mkV (vx (r0 m)) (vx (r1 m)) (vx (r2 m))) (mkV (vy (r0 m)) (vy (r1 m)) (vy (r2 m))) (mkV (vz (r0 m)) (vz (r1 m)) (vz (r2 m))).
Definition mmul (a b : mat) : mat := mkM3 (mvmul (mT b) (r0 a)) (mvmul (mT b) (r1 a)) (mvmul (mT b) (r2 a)).
Definition madd (a b : mat) : mat := mkM3 (vadd (r0 a) (r0 b)) (vadd (r1 a) (r1 b)) (vadd (r2 a) (r2 b)).
Definition msub (a b : mat) : mat := mkM3 (vsub (r0 a) (r0 b)) (vsub (r1 a) (r1 b)) (vsub (r2 a) (r2 b)).
Definition mscal (k : R) (a : mat) : mat := mkM3 (vscal k (r0 a)) (vscal k (r1 a)) (vscal k (r2 a)).
Definition mid : mat := mkM3 (mkV 1 0 0) (mkV 0 1 0) (mkV 0 0 1).
Definition m0 : mat := mkM3 v0 v0 v0.
Definition outer (a b : vec) : mat := mkM3 (vscal (vx a) b) (vscal (vy a) b) (vscal (vz a) b).
Definition det (m : mat) : R := dot (r0 m) (cross (r1 m) (r2 m)).
Definition quad (m : mat) (v : vec) : R := dot v (mvmul m v).
Definition orthogonal (m : mat) : Prop := mmul m (mT m) = mid /\ mmul (mT m) m = mid.
Definition msym (m : mat) : Prop := mT m = m.
Definition mpsd (m : mat) : Prop := forall v, 0 <= quad m v.

(** sum of vectors *)
Definition vsum {A} (f : A -> vec) (l : list A) : vec := fold_right (fun a s => vadd (f a) s) v0 l.

Ltac v3unfold := unfold orthogonal, quad, det, outer, mid, m0, mscal, msub, madd, mmul, mT, mvmul, is_unit, sqn, cross, dot, vscal, vneg, vsub, vadd, v0 in *; cbn [vx vy vz r0 r1 r2] in *.
Ltac v3des := repeat match goal with v : vec |- _ => destruct v | m : mat |- _ => destruct m end.
Lemma vec_eq a b : vx a = vx b -> vy a = vy b -> vz a = vz b -> a = b.
Proof. destruct a, b; cbn. now intros -> -> ->. Qed.
Lemma mat_eq a b : r0 a = r0 b -> r1 a = r1 b -> r2 a = r2 b -> a = b.
Proof. destruct a, b; cbn. now intros -> -> ->. Qed.
Ltac v3ring := intros; v3des; v3unfold; repeat (apply mat_eq || apply vec_eq); cbn [vx vy vz r0 r1 r2]; ring.

Lemma dot_comm a b : dot a b = dot b a.
Proof. v3ring. Qed.
Lemma dot_add_l a b c : dot (vadd a b) c = dot a c + dot b c.
Proof. v3ring. Qed.
Lemma dot_add_r a b c : dot c (vadd a b) = dot c a + dot c b.
Proof. v3ring. Qed.
Lemma dot_sub_l a b c : dot (vsub a b) c = dot a c - dot b c.
Proof. v3ring. Qed.
Lemma dot_sub_r a b c : dot c (vsub a b) = dot c a - dot c b.
Proof. v3ring. Qed.
Lemma dot_scal_l k a b : dot (vscal k a) b = k * dot a b.
Proof. v3ring. Qed.
Lemma dot_scal_r k a b : dot a (vscal k b) = k * dot a b.
Proof. v3ring. Qed.
Lemma dot_neg_l a b : dot (vneg a) b = - dot a b.
Proof. v3ring. Qed.
Lemma dot_0_l a : dot v0 a = 0.
Proof. v3ring. Qed.
Lemma mvmul_add m a b : mvmul m (vadd a b) = vadd (mvmul m a) (mvmul m b).
Proof. v3ring. Qed.
Lemma mvmul_sub m a b : mvmul m (vsub a b) = vsub (mvmul m a) (mvmul m b).
Proof. v3ring. Qed.
Lemma mvmul_scal m k a : mvmul m (vscal k a) = vscal k (mvmul m a).
Proof. v3ring. Qed.
Lemma mvmul_mmul a b v : mvmul (mmul a b) v = mvmul a (mvmul b v).
Proof. v3ring. Qed.
Lemma mvmul_id v : mvmul mid v = v.
Proof. v3ring. Qed.
Lemma mmul_assoc a b c : mmul a (mmul b c) = mmul (mmul a b) c.
Proof. v3ring. Qed.
Lemma mmul_id_l a : mmul mid a = a.
Proof. v3ring. Qed.
Lemma mmul_id_r a : mmul a mid = a.
Proof. v3ring. Qed.
Lemma mT_mT a : mT (mT a) = a.
Proof. v3ring. Qed.
Lemma mT_mmul a b : mT (mmul a b) = mmul (mT b) (mT a).
Proof. v3ring. Qed.
Lemma dot_mvmul m a b : dot a (mvmul m b) = dot (mvmul (mT m) a) b.
Proof. v3ring. Qed.
Lemma mvmul_outer a b v : mvmul (outer a b) v = vscal (dot b v) a.
Proof. v3ring. Qed.

Lemma sqn_nonneg a : 0 <= sqn a.
Proof. v3des; v3unfold. nra. Qed.
Lemma sqn_zero a : sqn a = 0 -> a = v0.
Proof. intros H. v3des; v3unfold. f_equal; nra. Qed.
Lemma norm_nonneg a : 0 <= norm a.
Proof. apply sqrt_pos. Qed.
Lemma norm_sqr a : norm a * norm a = sqn a.
Proof. apply sqrt_sqrt, sqn_nonneg. Qed.
Lemma norm_unit a : is_unit a -> norm a = 1.
Proof. intros H. unfold norm, sqn. rewrite H. apply sqrt_1. Qed.
Lemma norm_scal k a : norm (vscal k a) = Rabs k * norm a.
Proof.
  unfold norm, sqn. rewrite dot_scal_l, dot_scal_r, <- Rmult_assoc.
  rewrite sqrt_mult_alt by nra. f_equal. apply sqrt_Rsqr_abs.
Qed.
Lemma norm_zero a : norm a = 0 -> a = v0.
Proof. intros H. apply sqn_zero. rewrite <- norm_sqr, H. ring. Qed.
Lemma dist_sym a b : dist a b = dist b a.
Proof. unfold dist, norm. f_equal. v3ring. Qed.
(** Cauchy-Schwarz *)
Lemma cauchy a b : dot a b * dot a b <= sqn a * sqn b.
Proof.
  assert (sqn a * sqn b - dot a b * dot a b = sqn (cross a b)) as E by v3ring.
  pose proof (sqn_nonneg (cross a b)). lra.
Qed.
Lemma orthogonal_T m : orthogonal m -> orthogonal (mT m).
Proof. intros [A B]. split; now rewrite mT_mT. Qed.
Lemma orthogonal_mul a b : orthogonal a -> orthogonal b -> orthogonal (mmul a b).
Proof.
  intros [A A'] [B B']. split; rewrite mT_mmul.
  - now rewrite mmul_assoc, <- (mmul_assoc a b), B, mmul_id_r.
  - now rewrite mmul_assoc, <- (mmul_assoc (mT b) (mT a)), A', mmul_id_r.
Qed.
Lemma orthogonal_dot m a b : orthogonal m -> dot (mvmul m a) (mvmul m b) = dot a b.
Proof. intros [_ H]. now rewrite dot_mvmul, <- mvmul_mmul, H, mvmul_id. Qed.
Lemma orthogonal_inv m v : orthogonal m -> mvmul (mT m) (mvmul m v) = v.
Proof. intros [_ H]. now rewrite <- mvmul_mmul, H, mvmul_id. Qed.
Lemma orthogonal_inv' m v : orthogonal m -> mvmul m (mvmul (mT m) v) = v.
Proof. intros [H _]. now rewrite <- mvmul_mmul, H, mvmul_id. Qed.

(** Eigen's [normalized()] and [normalize()]: unchanged when the squared norm is not positive *)
Definition vnormalized (a : vec) : vec :=
  if Rlt_dec 0 (sqn a) then vscal (/ norm a) a else a.
Lemma normalized_unit a : is_unit a -> vnormalized a = a.
Proof.
  intros H. unfold vnormalized. rewrite norm_unit by assumption. destruct (Rlt_dec 0 (sqn a)) as [P|P]; [|reflexivity].
  rewrite Rinv_1. v3ring.
Qed.
Lemma normalized_is_unit a : a <> v0 -> is_unit (vnormalized a).
Proof.
  intros H. unfold vnormalized. pose proof (sqn_nonneg a) as N.
  destruct (Rlt_dec 0 (sqn a)) as [P|P]; [|exfalso; apply H, sqn_zero; lra].
  unfold is_unit. rewrite dot_scal_l, dot_scal_r. fold (sqn a). rewrite <- norm_sqr.
  assert (norm a <> 0) by (intros E; pose proof (norm_sqr a); rewrite E in *; lra). field. assumption.
Qed.

Lemma vsum_x {A} (f : A -> vec) l : vx (vsum f l) = rsum (fun a => vx (f a)) l.
Proof. induction l as [|a l IH]; [reflexivity|]. rewrite rsum_cons, <- IH. reflexivity. Qed.
Lemma vsum_y {A} (f : A -> vec) l : vy (vsum f l) = rsum (fun a => vy (f a)) l.
Proof. induction l as [|a l IH]; [reflexivity|]. rewrite rsum_cons, <- IH. reflexivity. Qed.
Lemma vsum_z {A} (f : A -> vec) l : vz (vsum f l) = rsum (fun a => vz (f a)) l.
Proof. induction l as [|a l IH]; [reflexivity|]. rewrite rsum_cons, <- IH. reflexivity. Qed.
Lemma vsum_cons {A} (f : A -> vec) a l : vsum f (a :: l) = vadd (f a) (vsum f l).
Proof. reflexivity. Qed.
Lemma dot_vsum {A} (f : A -> vec) l v : dot v (vsum f l) = rsum (fun a => dot v (f a)) l.
Proof. induction l as [|a l IH]; [cbn; v3ring|]. now rewrite vsum_cons, rsum_cons, dot_add_r, IH. Qed.
