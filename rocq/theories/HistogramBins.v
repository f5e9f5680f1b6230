(** The bins of the histogram are in range, in binary64 arithmetic. *)
From Coq Require Import Reals Lra Psatz ZArith.
From Flocq Require Import Core IEEE754.BinarySingleNaN.
From Verif Require Import PrimitiveModel.
Local Open Scope R_scope.

Notation fmt := (generic_format radix2 (SpecFloat.fexp 53 1024)).
Notation rnd := (round radix2 (SpecFloat.fexp 53 1024) (round_mode mode_NE)).
Lemma rnd_le x y : x <= y -> rnd x <= rnd y.
Proof. apply round_le; typeclasses eauto. Qed.
Lemma rnd_between a x b : fmt a -> fmt b -> a <= x <= b -> a <= rnd x <= b.
Proof.
  intros A B [L U]. split.
  - rewrite <- (round_generic radix2 (SpecFloat.fexp 53 1024) (round_mode mode_NE) a A). now apply rnd_le.
  - rewrite <- (round_generic radix2 (SpecFloat.fexp 53 1024) (round_mode mode_NE) b B). now apply rnd_le.
Qed.
Lemma fmt_dbl (x : dbl) : fmt (B2R x).
Proof. apply generic_format_B2R. Qed.
(** numbers with a small integer significand *)
Lemma fmt_F2R m e : (Z.abs m < 2 ^ 53)%Z -> (-1000 <= e)%Z -> fmt (F2R (Float radix2 m e)).
Proof.
  intros A B. apply generic_format_FLT. exists (Float radix2 m e); auto. cbn. unfold SpecFloat.emin. lia.
Qed.
Lemma small_no_overflow x b : Rabs x <= b -> b <= 1000 -> Rlt_bool (Rabs x) (bpow radix2 1024) = true.
Proof.
  intros A B. apply Rlt_bool_true. apply Rle_lt_trans with 1000; [lra|]. apply Rlt_le_trans with (bpow radix2 10).
  - cbn. lra.
  - now apply bpow_le.
Qed.

Lemma const_R m e : (Z.abs m < 2 ^ 53)%Z -> (-1000 <= e)%Z -> Rabs (F2R (Float radix2 m e)) <= 1000 ->
  let x := binary_normalize 53 1024 dprec demax mode_NE m e false in B2R x = F2R (Float radix2 m e) /\ is_finite x = true.
Proof.
  intros A B C. assert (G := binary_normalize_correct 53 1024 dprec demax mode_NE m e false). cbv zeta in G |- *.
  rewrite (round_generic radix2 (SpecFloat.fexp 53 1024) (round_mode mode_NE)) in G; [|now apply fmt_F2R].
  rewrite (small_no_overflow _ 1000) in G; [|exact C|lra]. destruct G as (G1 & G2 & _). auto.
Qed.
Definition Rpi : R := F2R (Float radix2 7074237752028440 (-51)).
Lemma Rpi_bounds : 314 / 100 < Rpi < 315 / 100.
Proof. unfold Rpi, F2R. cbn -[IZR]. split; lra. Qed.
Lemma dpi_R : B2R dpi = Rpi /\ is_finite dpi = true.
Proof. apply const_R; [reflexivity|lia|]. assert (B := Rpi_bounds). unfold Rpi in B. apply Rabs_le. lra. Qed.
Lemma nineteen_R : B2R (d_of_Z 19) = 19 /\ is_finite (d_of_Z 19) = true.
Proof.
  assert (E : F2R (Float radix2 19 0) = 19) by (unfold F2R; cbn; lra).
  rewrite <- E. apply const_R; [reflexivity|lia|]. rewrite E. apply Rabs_le. lra.
Qed.
Lemma dzero_R : B2R dzero = 0 /\ is_finite dzero = true.
Proof.
  assert (E : F2R (Float radix2 0 0) = 0) by (unfold F2R; cbn; lra).
  rewrite <- E. apply const_R; [reflexivity|lia|]. rewrite E. apply Rabs_le. lra.
Qed.
Lemma dsub_R x y b : is_finite x = true -> is_finite y = true -> fmt b -> 0 <= B2R x - B2R y <= b -> b <= 1000 ->
  0 <= B2R (dsub x y) <= b /\ B2R (dsub x y) = rnd (B2R x - B2R y) /\ is_finite (dsub x y) = true.
Proof.
  intros Fx Fy Fb D B. assert (G := Bminus_correct 53 1024 dprec demax mode_NE x y Fx Fy).
  assert (R := rnd_between 0 (B2R x - B2R y) b (generic_format_0 _ _) Fb D).
  rewrite (small_no_overflow _ b) in G; [|apply Rabs_le; lra|lra]. destruct G as (G1 & G2 & _).
  unfold dsub. rewrite G1. auto.
Qed.
Lemma dmul_R x y b : is_finite x = true -> is_finite y = true -> fmt b -> 0 <= B2R x * B2R y <= b -> b <= 1000 ->
  0 <= B2R (dmul x y) <= b /\ is_finite (dmul x y) = true.
Proof.
  intros Fx Fy Fb D B. assert (G := Bmult_correct 53 1024 dprec demax mode_NE x y).
  assert (R := rnd_between 0 (B2R x * B2R y) b (generic_format_0 _ _) Fb D).
  rewrite (small_no_overflow _ b) in G; [|apply Rabs_le; lra|lra]. destruct G as (G1 & G2 & _).
  unfold dmul. rewrite G1, G2, Fx, Fy. auto.
Qed.
Lemma ddiv_R x y b : is_finite x = true -> B2R y <> 0 -> fmt b -> 0 <= B2R x / B2R y <= b -> b <= 1000 ->
  0 <= B2R (ddiv x y) <= b /\ is_finite (ddiv x y) = true.
Proof.
  intros Fx Fy Fb D B. assert (G := Bdiv_correct 53 1024 dprec demax mode_NE x y Fy).
  assert (R := rnd_between 0 (B2R x / B2R y) b (generic_format_0 _ _) Fb D).
  rewrite (small_no_overflow _ b) in G; [|apply Rabs_le; lra|lra]. destruct G as (G1 & G2 & _).
  unfold ddiv. rewrite G1, G2, Fx. auto.
Qed.
Lemma fmt_half m : (Z.abs m < 2 ^ 53)%Z -> fmt (IZR m / 16).
Proof. intros A. replace (IZR m / 16) with (F2R (Float radix2 m (-4))); [apply fmt_F2R; auto; lia|]. unfold F2R. cbn. lra. Qed.

(** quantize of a value between 0 and the range *)
Lemma quantize_range d range lo hi :
  is_finite d = true -> 0 <= B2R d <= hi -> lo <= B2R range -> 0 < lo ->
  forall q, fmt q -> 19 * hi <= q -> q <= 1000 -> q / lo <= 312 / 16 -> (0 <= quantize d range < 20)%Z.
Proof.
  intros Fd D Lr Lp q Fq Q Q' K. unfold quantize. change (Z.of_nat (hist_side - 1)) with 19%Z.
  destruct nineteen_R as [E19 F19].
  destruct (dmul_R (d_of_Z 19) d q) as [M Fm]; auto; [rewrite E19; lra|].
  set (p := dmul (d_of_Z 19) d) in *.
  destruct (ddiv_R p range (312 / 16)) as [R Fr]; auto; [lra|apply fmt_half; reflexivity| |lra|].
  - assert (0 < / B2R range) by (apply Rinv_0_lt_compat; lra). split; [unfold Rdiv; nra|].
    apply Rle_trans with (q / lo); [|exact K]. unfold Rdiv.
    assert (/ B2R range <= / lo) by (apply Rinv_le_contravar; lra).
    apply Rmult_le_compat; lra.
  - split.
    + apply Zfloor_lub. lra.
    + assert (Zfloor (B2R (ddiv p range)) <= 19)%Z; [|lia].
      assert (X := Zfloor_lb (B2R (ddiv p range))).
      apply Zlt_succ_le, lt_IZR. apply Rle_lt_trans with (1 := X). change (Z.succ 19) with 20%Z. lra.
Qed.

(** For every angles in the ranges of [acos] and [atan2], the bin is one of the bins. *)
Lemma bin_of_in_range theta phi :
  is_finite theta = true -> is_finite phi = true -> 0 <= B2R theta <= B2R dpi -> - B2R dpi <= B2R phi <= B2R dpi ->
  (0 <= bin_of theta phi < Z.of_nat hist_size)%Z.
Proof.
  intros Ft Fp T P. destruct dpi_R as [Epi Fpi]. destruct dzero_R as [E0 F0]. assert (B := Rpi_bounds). rewrite Epi in *.
  assert (X : (0 <= quantize (dsub theta dzero) (dsub dpi dzero) < 20)%Z).
  { destruct (dsub_R theta dzero Rpi) as (D1 & D2 & D3); auto; [rewrite <- Epi; apply fmt_dbl|rewrite E0; lra|lra|].
    destruct (dsub_R dpi dzero Rpi) as (P1 & P2 & P3); auto; [rewrite <- Epi; apply fmt_dbl|rewrite E0, Epi; lra|lra|].
    rewrite E0, Epi, Rminus_0_r in P2. rewrite round_generic in P2; [|typeclasses eauto|rewrite <- Epi; apply fmt_dbl].
    apply (quantize_range _ _ (314 / 100) Rpi) with (q := 960 / 16); auto; try lra; [apply fmt_half; reflexivity]. }
  assert (Y : (0 <= quantize (dsub phi (Bopp dpi)) d2pi < 20)%Z).
  { assert (Fo : is_finite (Bopp dpi) = true) by (rewrite is_finite_Bopp; exact Fpi).
    assert (F2 : fmt (101 / 16)) by (apply fmt_half; reflexivity).
    destruct (dsub_R phi (Bopp dpi) (101 / 16)) as (D1 & D2 & D3); auto; [rewrite B2R_Bopp, Epi; lra|lra|].
    assert (F3 : fmt (100 / 16)) by (apply fmt_half; reflexivity).
    assert (L2 : 100 / 16 <= B2R d2pi).
    { destruct (dsub_R dpi (Bopp dpi) (101 / 16)) as (P1 & P2 & P3); auto; [rewrite B2R_Bopp, Epi; lra|lra|].
      unfold d2pi. rewrite P2, B2R_Bopp, Epi.
      apply (rnd_between (100 / 16) (Rpi - - Rpi) (101 / 16)); auto; lra. }
    apply (quantize_range _ _ (100 / 16) (101 / 16)) with (q := 1920 / 16); auto; try lra; [apply fmt_half; reflexivity]. }
  unfold bin_of. change (Z.of_nat hist_side) with 20%Z. change (Z.of_nat hist_size) with 400%Z.
  destruct (0 <? _)%Z; lia.
Qed.
