(** The tactic [ring] for the elements of the ordered fields of mathcomp. *)
From mathcomp Require Import all_ssreflect all_algebra.
Import Order.TTheory GRing.Theory Num.Theory.
Local Open Scope ring_scope.
Definition fr_zero (R : realFieldType) : R := 0.
Definition fr_one (R : realFieldType) : R := 1.
Definition fr_add (R : realFieldType) (a b : R) : R := a + b.
Definition fr_mul (R : realFieldType) (a b : R) : R := a * b.
Definition fr_opp (R : realFieldType) (a : R) : R := - a.
Definition fr_sub (R : realFieldType) (a b : R) : R := fr_add R a (fr_opp R b).
Lemma fr_ring (R : realFieldType) : ring_theory (fr_zero R) (fr_one R) (fr_add R) (fr_mul R) (fr_sub R) (fr_opp R) eq.
Proof.
split=> *; rewrite /fr_zero /fr_one /fr_add /fr_mul /fr_sub /fr_opp ?add0r ?mul1r ?addrN ?mulrDl //;
  [exact: addrC|exact: addrA|exact: mulrC|exact: mulrA].
Qed.
Ltac fr_fold R :=
  rewrite ?expr2 ?mulr2n;
  repeat match goal with
  | |- context [@GRing.natmul ?Z (GRing.one ?U) 2] => change (@GRing.natmul Z (GRing.one U) 2) with (fr_add R (fr_one R) (fr_one R))
  | |- context [@GRing.zero ?Z] => change (@GRing.zero Z) with (fr_zero R)
  | |- context [@GRing.one ?Z] => change (@GRing.one Z) with (fr_one R)
  | |- context [@GRing.add ?Z ?a ?b] => change (@GRing.add Z a b) with (fr_add R a b)
  | |- context [@GRing.mul ?Z ?a ?b] => change (@GRing.mul Z a b) with (fr_mul R a b)
  | |- context [@GRing.opp ?Z ?a] => change (@GRing.opp Z a) with (fr_opp R a)
  end;
  match goal with |- @eq _ ?a ?b => change (@eq (Num.RealField.sort R) a b) end.
