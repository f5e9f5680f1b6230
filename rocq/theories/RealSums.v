(** Finite sums of real numbers over lists, with the usual laws. Not part of the
    model: used to write sums of the code and of the specifications. *)
From Coq Require Export Reals List Permutation Lra Lia.
Export ListNotations.
Local Open Scope R_scope.

Section Sums.
Context {A : Type}.
Implicit Types (f g : A -> R) (l : list A).

Definition rsum f l : R := fold_right (fun a s => f a + s) 0 l.

Lemma rsum_cons f a l : rsum f (a :: l) = f a + rsum f l.
Proof. reflexivity. Qed.
Lemma rsum_app f l l' : rsum f (l ++ l') = rsum f l + rsum f l'.
Proof. induction l as [|a l IH]; [cbn [app]; unfold rsum at 2; cbn; ring|]. cbn [app]. rewrite !rsum_cons, IH. ring. Qed.
Lemma rsum_ext f g l : (forall a, In a l -> f a = g a) -> rsum f l = rsum g l.
Proof.
  induction l as [|a l IH]; intros H; [reflexivity|]. rewrite !rsum_cons. rewrite H by now left.
  f_equal. apply IH. intros b Hb. apply H. now right.
Qed.
Lemma rsum_plus f g l : rsum (fun a => f a + g a) l = rsum f l + rsum g l.
Proof. induction l as [|a l IH]; [cbn; ring|]. rewrite !rsum_cons, IH. ring. Qed.
Lemma rsum_minus f g l : rsum (fun a => f a - g a) l = rsum f l - rsum g l.
Proof. induction l as [|a l IH]; [cbn; ring|]. rewrite !rsum_cons, IH. ring. Qed.
Lemma rsum_scal c f l : rsum (fun a => c * f a) l = c * rsum f l.
Proof. induction l as [|a l IH]; [cbn; ring|]. rewrite !rsum_cons, IH. ring. Qed.
Lemma rsum_scal_r c f l : rsum (fun a => f a * c) l = rsum f l * c.
Proof. induction l as [|a l IH]; [cbn; ring|]. rewrite !rsum_cons, IH. ring. Qed.
Lemma rsum_const c l : rsum (fun _ => c) l = INR (length l) * c.
Proof. induction l as [|a l IH]; [cbn; ring|]. rewrite rsum_cons, IH. cbn [length]. rewrite S_INR. ring. Qed.
Lemma rsum_nonneg f l : (forall a, In a l -> 0 <= f a) -> 0 <= rsum f l.
Proof.
  induction l as [|a l IH]; intros H; [cbn; lra|]. rewrite rsum_cons.
  apply Rplus_le_le_0_compat; [apply H; now left|]. apply IH. intros b Hb. apply H. now right.
Qed.
Lemma rsum_le f g l : (forall a, In a l -> f a <= g a) -> rsum f l <= rsum g l.
Proof.
  induction l as [|a l IH]; intros H; [cbn; lra|]. rewrite !rsum_cons.
  apply Rplus_le_compat; [apply H; now left|]. apply IH. intros b Hb. apply H. now right.
Qed.
Lemma rsum_pos f l a : (forall a, In a l -> 0 <= f a) -> In a l -> 0 < f a -> 0 < rsum f l.
Proof.
  intros H I P. apply in_split in I. destruct I as (l1 & l2 & ->). rewrite rsum_app, rsum_cons.
  assert (0 <= rsum f l1) by (apply rsum_nonneg; intros b Hb; apply H; apply in_or_app; auto).
  assert (0 <= rsum f l2) by (apply rsum_nonneg; intros b Hb; apply H; apply in_or_app; right; now right).
  lra.
Qed.
Lemma rsum_perm f l l' : Permutation l l' -> rsum f l = rsum f l'.
Proof. induction 1; rewrite ?rsum_cons; try reflexivity; try lra. Qed.
End Sums.

Lemma rsum_map {A B} (h : A -> B) (f : B -> R) l : rsum f (map h l) = rsum (fun a => f (h a)) l.
Proof. induction l as [|a l IH]; [reflexivity|]. cbn [map]. now rewrite !rsum_cons, IH. Qed.
Lemma rsum_swap {A B} (f : A -> B -> R) l l' :
  rsum (fun a => rsum (f a) l') l = rsum (fun b => rsum (fun a => f a b) l) l'.
Proof.
  induction l as [|a l IH].
  - induction l' as [|b l' IH']; [reflexivity|]. rewrite rsum_cons, <- IH'. cbn. ring.
  - rewrite rsum_cons, IH, <- rsum_plus. reflexivity.
Qed.
Lemma rsum_mult {A B} (f : A -> R) (g : B -> R) l l' :
  rsum f l * rsum g l' = rsum (fun a => rsum (fun b => f a * g b) l') l.
Proof. rewrite <- rsum_scal_r. apply rsum_ext. intros a _. now rewrite rsum_scal. Qed.
