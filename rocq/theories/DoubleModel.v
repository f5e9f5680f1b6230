(** IEEE 754 binary64 numbers, with the arithmetic of Flocq (which computes):
    the C++ type [double], rounding to nearest even. *)
From Coq Require Export ZArith List Bool.
From Flocq Require Import Core IEEE754.BinarySingleNaN.
Export ListNotations.
Local Open Scope Z_scope.

Definition dprec : Prec_gt_0 53 := eq_refl.
Definition demax : Prec_lt_emax 53 1024 := eq_refl.
#[global] Existing Instance dprec.
#[global] Existing Instance demax.

Definition dbl : Type := binary_float 53 1024.
Definition d_of_Z (z : Z) : dbl := binary_normalize 53 1024 dprec demax mode_NE z 0 false.
Definition dadd (a b : dbl) : dbl := Bplus mode_NE a b.
Definition dsub (a b : dbl) : dbl := Bminus mode_NE a b.
Definition ddiv (a b : dbl) : dbl := Bdiv mode_NE a b.
Definition dabs (a : dbl) : dbl := Babs a.
(** [a < b], [a <= b] *)
Definition dlt (a b : dbl) : bool := Bltb a b.
Definition dle (a b : dbl) : bool := Bleb a b.
Definition dzero : dbl := d_of_Z 0.
Definition done : dbl := d_of_Z 1.
