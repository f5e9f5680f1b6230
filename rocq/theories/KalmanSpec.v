(** What is expected of the Kalman filters, independent of the model. *)
From mathcomp Require Import all_ssreflect all_algebra.
Import Order.TTheory GRing.Theory Num.Theory.
Set Implicit Arguments.
Unset Strict Implicit.
Unset Printing Implicit Defensive.
Local Open Scope ring_scope.

Section Spec.
Variable R : realFieldType.
(** The variance of the combination [v] of the coordinates *)
Definition variance n (A : 'M[R]_n) (v : 'cV[R]_n) : R := (v^T *m A *m v) 0 0.
(** Symmetric and positive semi-definite *)
Definition covariance n (A : 'M[R]_n) : Prop := A^T = A /\ forall v, 0 <= variance A v.
(** No combination of the coordinates is less certain with [A] than with [B] *)
Definition not_larger n (A B : 'M[R]_n) : Prop := forall v, variance A v <= variance B v.
(** The conditions of Penrose *)
Definition moore_penrose n (A X : 'M[R]_n) : Prop :=
  A *m X *m A = A /\ X *m A *m X = X /\ (A *m X)^T = A *m X /\ (X *m A)^T = X *m A.
(** The covariance of the error of [x + K (z - H x)], for a state [x] of covariance [P] and an
    independent measurement [z] of covariance [N] *)
Definition error_covariance n m (P : 'M[R]_n) (H : 'M[R]_(m, n)) (N : 'M[R]_m) (K : 'M[R]_(n, m)) : 'M[R]_n :=
  (1%:M - K *m H) *m P *m (1%:M - K *m H)^T + K *m N *m K^T.
End Spec.
