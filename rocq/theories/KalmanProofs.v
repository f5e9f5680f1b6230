(** Positive semi-definite matrices, pseudo-inverses and the update of the Kalman filter. *)
From mathcomp Require Import all_ssreflect all_algebra.
From Verif Require Import FieldRing KalmanModel KalmanSpec.
Import Order.TTheory GRing.Theory Num.Theory.
Set Implicit Arguments.
Unset Strict Implicit.
Unset Printing Implicit Defensive.
Local Open Scope ring_scope.

Section Proofs.
Variable R : realFieldType.
Implicit Types n m p : nat.

Add Ring ring_R : (fr_ring R).
Ltac mring := fr_fold R; ring.

Lemma lower_view_sym n (A : 'M[R]_n) : A^T = A -> lower_view A = A.
Proof.
move=> S; apply/matrixP=> i j; rewrite mxE; case: ifP=> // _.
by rewrite -{1}S mxE.
Qed.
Lemma lower_view_tr n (A : 'M[R]_n) : (lower_view A)^T = lower_view A.
Proof.
apply/matrixP=> i j; rewrite !mxE; case: (ltngtP i j)=> // E.
by have -> : i = j by apply: val_inj.
Qed.
Lemma upper_view_sym n (A : 'M[R]_n) : A^T = A -> upper_view A = A.
Proof.
move=> S; apply/matrixP=> i j; rewrite mxE; case: ifP=> // _.
by rewrite -{1}S mxE.
Qed.

Lemma scalar_tr (s : 'M[R]_1) : s^T = s.
Proof. by apply/matrixP=> i j; rewrite mxE !ord1. Qed.
Lemma sqr_norm_eq0 n (v : 'cV[R]_n) : (v^T *m v) 0 0 = 0 -> v = 0.
Proof.
move=> E; apply/matrixP=> i j; rewrite ord1 mxE.
have: \sum_k (v k 0) ^+ 2 = 0.
  have <- : (v^T *m v) 0 0 = \sum_k (v k 0) ^+ 2 by rewrite mxE; apply: eq_bigr=> k _; rewrite mxE expr2.
  exact: E.
move/eqP; rewrite psumr_eq0; last by move=> k _; apply: sqr_ge0.
by move/allP/(_ i); rewrite mem_index_enum=> /(_ isT); rewrite sqrf_eq0=> /eqP.
Qed.
Lemma sqr_norm_ge0 n (v : 'cV[R]_n) : 0 <= (v^T *m v) 0 0.
Proof. by rewrite mxE; apply: sumr_ge0=> k _; rewrite mxE -expr2 sqr_ge0. Qed.

Lemma variance_add n (A B : 'M[R]_n) v : variance (A + B) v = variance A v + variance B v.
Proof. by rewrite /variance mulmxDr mulmxDl mxE. Qed.
Lemma variance_opp n (A : 'M[R]_n) v : variance (- A) v = - variance A v.
Proof. by rewrite /variance mulmxN mulNmx mxE. Qed.
Lemma variance_sub n (A B : 'M[R]_n) v : variance (A - B) v = variance A v - variance B v.
Proof. by rewrite variance_add variance_opp. Qed.
Lemma variance_prop n m (A : 'M[R]_n) (J : 'M[R]_(m, n)) v : variance (J *m A *m J^T) v = variance A (J^T *m v).
Proof. by rewrite /variance trmx_mul trmxK !mulmxA. Qed.
Lemma covariance_add n (A B : 'M[R]_n) : covariance A -> covariance B -> covariance (A + B).
Proof.
move=> [SA PA] [SB PB]; split; first by rewrite linearD /= SA SB.
by move=> v; rewrite variance_add addr_ge0.
Qed.
Lemma covariance_prop n m (A : 'M[R]_n) (J : 'M[R]_(m, n)) : covariance A -> covariance (J *m A *m J^T).
Proof.
move=> [S P]; split; first by rewrite !trmx_mul trmxK S mulmxA.
by move=> v; rewrite variance_prop.
Qed.
Lemma covariance_propagate n m (A : 'M[R]_n) (J : 'M[R]_(m, n)) :
  covariance A -> propagate_covariance A J = J *m A *m J^T.
Proof.
move=> C; rewrite /propagate_covariance (lower_view_sym C.1) lower_view_sym //.
exact: (covariance_prop J C).1.
Qed.

(** Cross term of a symmetric form *)
Lemma bilinear_sym n (A : 'M[R]_n) (u w : 'cV[R]_n) : A^T = A -> (u^T *m A *m w) 0 0 = (w^T *m A *m u) 0 0.
Proof.
move=> S; have <- : (u^T *m A *m w)^T = w^T *m A *m u by rewrite !trmx_mul trmxK S mulmxA.
by rewrite [RHS]mxE.
Qed.
Lemma variance_sum n (A : 'M[R]_n) (u w : 'cV[R]_n) t : A^T = A ->
  variance A (u + t *: w) = variance A u + 2%:R * t * (w^T *m A *m u) 0 0 + t ^+ 2 * variance A w.
Proof.
move=> S; rewrite /variance.
have -> : (u + t *: w)^T = u^T + t *: w^T by apply/matrixP=> i j; rewrite !mxE.
rewrite !mulmxDl !mulmxDr -!scalemxAl -!scalemxAr.
have E (B C : 'M[R]_1) : (B + C) 0 0 = B 0 0 + C 0 0 by rewrite mxE.
have Z k (B : 'M[R]_1) : (k *: B) 0 0 = k * B 0 0 by rewrite mxE.
rewrite !(E, Z) (bilinear_sym u w S).
set a := (u^T *m A *m u) 0 0; set b := (w^T *m A *m u) 0 0; set c := (w^T *m A *m w) 0 0.
by mring.
Qed.
(** A null variance is a null row *)
Lemma covariance_kernel n (P : 'M[R]_n) u : covariance P -> variance P u = 0 -> P *m u = 0.
Proof.
move=> [S Pos] Z; apply: sqr_norm_eq0.
set w := P *m u.
have Eb : (w^T *m P *m u) 0 0 = (w^T *m w) 0 0 by rewrite /w -mulmxA.
set b := (w^T *m w) 0 0; set c := variance P w.
have Q t : 0 <= 2%:R * t * b + t ^+ 2 * c by move: (Pos (u + t *: w)); rewrite variance_sum // Z add0r Eb.
have c0 : 0 <= c by apply: Pos.
have b0 : 0 <= b by apply: sqr_norm_ge0.
apply/eqP; rewrite eq_le b0 andbT leNgt; apply/negP=> bp.
have d0 : 0 < c + 1 by apply: ltr_paddl=> //; exact: ltr01.
move: (Q (- (b / (c + 1)))).
set t := b / (c + 1).
have tp : 0 < t by rewrite divr_gt0.
have -> : 2%:R * (- t) * b + (- t) ^+ 2 * c = t * (t * c - b * 2%:R).
  by mring.
rewrite pmulr_rge0 // subr_ge0 leNgt; case/negP.
have L : t * c <= b.
  rewrite /t mulrAC ler_pdivr_mulr // mulrDr mulr1 ler_addl; exact: ltW.
by apply: le_lt_trans L _; rewrite mulr_natr mulr2n ltr_addl.
Qed.

(** The LDL' test *)
Lemma block_tr n (A : 'M[R]_(1 + n)) : A^T = A -> ursubmx A = (dlsubmx A)^T /\ (drsubmx A)^T = drsubmx A.
Proof. by move=> S; rewrite trmx_dlsub trmx_drsub S. Qed.
Lemma variance_block n (A : 'M[R]_(1 + n)) (x : R) (w : 'cV[R]_n) : A^T = A ->
  variance A (col_mx x%:M w) =
    ulsubmx A 0 0 * x ^+ 2 + 2%:R * x * ((dlsubmx A)^T *m w) 0 0 + variance (drsubmx A) w.
Proof.
move=> S; rewrite /variance -{1}(submxK A) tr_col_mx mul_row_block mul_row_col.
have [-> _] := block_tr S.
rewrite tr_scalar_mx !mulmxDl !mul_mx_scalar !mul_scalar_mx -?scalemxAl ?scalerDr ?scalerA.
set a := ulsubmx A; set c := dlsubmx A; set D := drsubmx A.
have -> : w^T *m c = c^T *m w by rewrite -[LHS]scalar_tr trmx_mul trmxK.
have E (B C : 'M[R]_1) : (B + C) 0 0 = B 0 0 + C 0 0 by rewrite mxE.
have Z k (B : 'M[R]_1) : (k *: B) 0 0 = k * B 0 0 by rewrite mxE.
rewrite !(E, Z); set a0 := a 0 0; set b := (c^T *m w) 0 0; set d := (w^T *m D *m w) 0 0.
by mring.
Qed.
Lemma column_block n (v : 'cV[R]_(1 + n)) : v = col_mx (usubmx v 0 0)%:M (dsubmx v).
Proof. by rewrite -mx11_scalar vsubmxK. Qed.
Lemma variance_outer n (c w : 'cV[R]_n) : variance (c *m c^T) w = ((c^T *m w) 0 0) ^+ 2.
Proof.
rewrite /variance mulmxA.
have -> : w^T *m c = (c^T *m w)^T by rewrite trmx_mul trmxK.
rewrite scalar_tr -mulmxA {1}(mx11_scalar (c^T *m w)) mul_scalar_mx mxE expr2 //.
Qed.
Lemma variance_scale n (k : R) (A : 'M[R]_n) w : variance (k *: A) w = k * variance A w.
Proof. by rewrite /variance -scalemxAr -scalemxAl mxE. Qed.

Lemma ldlt_positiveP n (A : 'M[R]_n) : A^T = A -> ldlt_positive A <-> forall v, 0 <= variance A v.
Proof.
elim: n A => [|n IH] A S.
  by split=> // _ v; rewrite /variance mxE big_ord0.
change 'M[R]_(1 + n) in A.
have [_ Srest] := block_tr S; rewrite /=.
set a := ulsubmx A 0 0; set c := dlsubmx A; set D := drsubmx A.
have V x w := variance_block x w S; rewrite -/a -/c -/D in V.
have Z0 : (0 : 'M[R]_1) 0 0 = 0 by rewrite mxE.
case: (ltrgt0P a) => a0.
- have Ssch : (D - a^-1 *: (c *m c^T))^T = D - a^-1 *: (c *m c^T).
    by rewrite linearB linearZ /= trmx_mul trmxK Srest.
  have W w : variance (D - a^-1 *: (c *m c^T)) w = variance D w - a^-1 * ((c^T *m w) 0 0) ^+ 2.
    by rewrite variance_sub variance_scale variance_outer.
  have Eq x w : variance A (col_mx x%:M w) =
      a * (x + a^-1 * (c^T *m w) 0 0) ^+ 2 + variance (D - a^-1 *: (c *m c^T)) w.
    rewrite V W; set b := (c^T *m w) 0 0; set d := variance D w.
    have an : a != 0 by rewrite lt0r_neq0.
    have aa : a * a^-1 = 1 by rewrite mulfV.
    move: aa; move: (a^-1) => ai aa.
    have -> : a * (x + ai * b) ^+ 2 + (d - ai * b ^+ 2) =
        a * x ^+ 2 + a * ai * (2%:R * x * b) + a * ai * (ai * b ^+ 2) + d - ai * b ^+ 2 by mring.
    rewrite aa; mring.
  rewrite IH //; split=> H.
    move=> v; rewrite (column_block v) Eq addr_ge0 //.
    by rewrite mulr_ge0 ?sqr_ge0 // ltW.
  move=> w; move: (H (col_mx (- (a^-1 * (c^T *m w) 0 0))%:M w)).
  by rewrite Eq addNr expr0n mulr0 add0r.
- split=> // H; move: (H (col_mx (1 : R)%:M (0 : 'cV[R]_n))).
  rewrite V expr1n !mulr1 mulmx0 Z0 mulr0 addr0 /variance mulmx0 Z0 addr0 leNgt a0 //.
- split.
    move=> /andP[/eqP c0 P] v; rewrite (column_block v) V a0 c0 mul0r add0r trmx0 mul0mx Z0 mulr0 add0r.
    by apply: (proj1 (IH D Srest)).
  move=> H; have c0 : c = 0.
    have Pos : covariance A by split.
    have Z : variance A (col_mx (1 : R)%:M (0 : 'cV[R]_n)) = 0.
      by rewrite V a0 expr1n !mulr1 mulmx0 Z0 mulr0 addr0 /variance mulmx0 Z0 addr0.
    have K := covariance_kernel Pos Z.
    move: K; rewrite -{1}(submxK A) mul_block_col !mulmx0 !addr0 !mulmx1=> K.
    by rewrite /c -(col_mxKd (ulsubmx A) (dlsubmx A)) K linear0.
  rewrite c0 eqxx /= IH // => w.
  move: (H (col_mx (0 : R)%:M w)); rewrite V.
  by rewrite expr0n /= !mulr0 add0r mul0r add0r.
Qed.
Lemma is_covariance_validP n (A : 'M[R]_n) : is_covariance_valid A <-> covariance A.
Proof.
split.
  move=> /andP[/eqP S P]; have S' : A^T = A by rewrite -S.
  rewrite upper_view_sym // in P; split=> //; exact: (proj1 (ldlt_positiveP S')).
move=> [S P]; apply/andP; split; first by rewrite S.
by rewrite upper_view_sym //; apply/ldlt_positiveP.
Qed.

(** Gram matrices of full rank matrices are invertible *)
Lemma gram_unit n m (A : 'M[R]_(m, n)) : row_free A -> A *m A^T \in unitmx.
Proof.
move=> F; rewrite -row_free_unit -kermx_eq0; apply/rowV0P=> v /sub_kermxP E.
have Z : (v *m A)^T = 0.
  apply: sqr_norm_eq0; rewrite trmxK trmx_mul mulmxA -[v *m A *m A^T]mulmxA E mul0mx mxE //.
have Z' : v *m A = 0 by rewrite -[v *m A]trmxK Z trmx0.
have: v = 0 by apply: (row_free_inj F); rewrite Z' mul0mx.
by [].
Qed.
Lemma factor_penrose n r (C : 'M[R]_(n, r)) (F : 'M[R]_(r, n)) :
  F *m F^T \in unitmx -> C^T *m C \in unitmx ->
  moore_penrose (C *m F) (F^T *m invmx (F *m F^T) *m invmx (C^T *m C) *m C^T).
Proof.
move=> Fu Cu; rewrite /moore_penrose.
set G := invmx (F *m F^T); set H := invmx (C^T *m C).
have EF : F *m F^T *m G = 1%:M by rewrite /G mulmxV.
have EC' : H *m (C^T *m C) = 1%:M by rewrite /H mulVmx.
have GT : G^T = G by rewrite /G trmx_inv trmx_mul trmxK.
have HT : H^T = H by rewrite /H trmx_inv trmx_mul trmxK.
have AX : C *m F *m (F^T *m G *m H *m C^T) = C *m H *m C^T.
  by rewrite !mulmxA -[C *m F *m F^T]mulmxA -[C *m (F *m F^T) *m G]mulmxA EF mulmx1.
have XA : F^T *m G *m H *m C^T *m (C *m F) = F^T *m G *m F.
  by rewrite !mulmxA -[F^T *m G *m H *m C^T *m C]mulmxA -[_ *m H *m (C^T *m C)]mulmxA EC' mulmx1.
split; first by rewrite AX !mulmxA -[C *m H *m C^T *m C]mulmxA -[C *m H *m _]mulmxA EC' mulmx1.
split; first by rewrite XA !mulmxA -[F^T *m G *m F *m F^T]mulmxA -[F^T *m G *m (F *m F^T) *m G]mulmxA EF mulmx1.
by split; [rewrite AX|rewrite XA]; rewrite !trmx_mul ?trmxK ?GT ?HT mulmxA.
Qed.
Lemma moore_penrose_pseudo_inverse n (A : 'M[R]_n) : moore_penrose A (pseudo_inverse A).
Proof.
rewrite -{1}(mulmx_base A); apply: factor_penrose.
  by rewrite gram_unit ?row_base_free.
have := @gram_unit _ _ (col_base A)^T; rewrite trmxK; apply.
by rewrite /row_free mxrank_tr; exact: col_base_full.
Qed.
Lemma moore_penrose_unique n (A X Y : 'M[R]_n) : moore_penrose A X -> moore_penrose A Y -> X = Y.
Proof.
move=> [X1 [X2 [X3 X4]]] [Y1 [Y2 [Y3 Y4]]].
have AE : A *m X = A *m Y.
  have T : A *m X = (A *m Y) *m (A *m X) by rewrite mulmxA Y1.
  by rewrite T -X3 -Y3 -trmx_mul mulmxA X1 Y3.
have EA : X *m A = Y *m A.
  have T : X *m A = (X *m A) *m (Y *m A) by rewrite mulmxA -[X *m A *m Y]mulmxA -mulmxA Y1.
  by rewrite T -X4 -Y4 -trmx_mul -mulmxA [A *m _]mulmxA X1 Y4.
by rewrite -X2 -mulmxA AE mulmxA EA Y2.
Qed.

Lemma moore_penrose_sym n (A X : 'M[R]_n) : A^T = A -> moore_penrose A X -> X^T = X.
Proof.
move=> S M; have [M1 [M2 [M3 M4]]] := M.
apply: (moore_penrose_unique (A := A)) => //; split; last split; last split.
- by have := congr1 trmx M1; rewrite !trmx_mul S mulmxA.
- by have := congr1 trmx M2; rewrite !trmx_mul S mulmxA.
- by rewrite trmx_mul trmxK S -M4 trmx_mul S.
- by rewrite trmx_mul trmxK S -M3 trmx_mul S.
Qed.

(** ** The update *)
Section Update.
Variables (n m : nat) (P : 'M[R]_n) (H : 'M[R]_(m, n)) (N : 'M[R]_m) (X : 'M[R]_m).
Hypothesis CP : covariance P.
Hypothesis CN : covariance N.
Let S : 'M[R]_m := H *m P *m H^T + N.
Hypothesis MP : moore_penrose S X.
Let K : 'M[R]_(n, m) := P *m H^T *m X.
Lemma innovation_covariance : covariance S.
Proof. by apply: covariance_add=> //; apply: covariance_prop. Qed.
Lemma pseudo_inverse_sym : X^T = X.
Proof. exact: (moore_penrose_sym innovation_covariance.1 MP). Qed.
Lemma gain_innovation : K *m S = P *m H^T.
Proof.
have [M1 _] := MP.
apply/eqP; rewrite -subr_eq0; apply/eqP.
have -> : K *m S - P *m H^T = - (P *m H^T *m (1%:M - X *m S)).
  by rewrite /K mulmxBr mulmx1 opprB mulmxA.
apply/eqP; rewrite oppr_eq0; apply/eqP.
apply/matrixP=> i j; rewrite [RHS]mxE.
set v : 'cV[R]_m := (1%:M - X *m S) *m delta_mx j 0.
have Kc : S *m v = 0.
  by rewrite /v mulmxA mulmxBr mulmx1 mulmxA M1 subrr mul0mx.
have Z : variance S v = 0 by rewrite /variance -mulmxA Kc mulmx0 mxE.
have Zs : variance (H *m P *m H^T) v + variance N v = 0 by rewrite -variance_add.
have Z1 : variance P (H^T *m v) = 0.
  apply/eqP; rewrite -variance_prop eq_le; apply/andP; split; last first.
    by rewrite variance_prop; apply: CP.2.
  by rewrite -Zs ler_addl; apply: CN.2.
have := covariance_kernel CP Z1; rewrite /v !mulmxA -colE => /matrixP/(_ i 0).
by rewrite [LHS]mxE [RHS]mxE.
Qed.
Lemma new_covariance_form : (1%:M - K *m H) *m P = P - P *m H^T *m X *m H *m P.
Proof. by rewrite mulmxBl mul1mx. Qed.
Lemma new_covariance_sym : ((1%:M - K *m H) *m P)^T = (1%:M - K *m H) *m P.
Proof.
rewrite new_covariance_form linearB /= !trmx_mul trmxK CP.1 pseudo_inverse_sym !mulmxA //.
Qed.
(** Completing the square *)
Lemma error_covariance_gain (G : 'M[R]_(n, m)) :
  error_covariance P H N G = (1%:M - K *m H) *m P + (G - K) *m S *m (G - K)^T.
Proof.
have KS := gain_innovation.
have SK : S *m K^T = H *m P.
  by rewrite -{1}(innovation_covariance.1) -trmx_mul KS trmx_mul trmxK CP.1.
have E1 : error_covariance P H N G = P - G *m H *m P - P *m H^T *m G^T + G *m S *m G^T.
  have T : (1%:M - G *m H)^T = 1%:M - H^T *m G^T.
    by rewrite -trmx_mul; apply/matrixP=> i j; rewrite !mxE eq_sym.
  rewrite /error_covariance /S T mulmxBr mulmx1 mulmxBl mul1mx mulmxBl mulmxDr mulmxDl !mulmxA.
  apply/matrixP=> i j.
  have D (A B : 'M[R]_n) : (A + B) i j = A i j + B i j by rewrite mxE.
  have O (A : 'M[R]_n) : (- A) i j = - A i j by rewrite mxE.
  rewrite !(D, O); mring.
have T : (G - K)^T = G^T - K^T by apply/matrixP=> i j; rewrite !mxE.
have -> : (G - K) *m S *m (G - K)^T = G *m S *m G^T - G *m S *m K^T - K *m S *m G^T + K *m S *m K^T.
  rewrite T mulmxBl mulmxBr !mulmxBl; apply/matrixP=> i j.
  have D (A B : 'M[R]_n) : (A + B) i j = A i j + B i j by rewrite mxE.
  have O (A : 'M[R]_n) : (- A) i j = - A i j by rewrite mxE.
  rewrite !(D, O); mring.
rewrite E1 mulmxBl mul1mx KS -[G *m S *m K^T]mulmxA SK.
have -> : P *m H^T *m K^T = K *m H *m P.
  by rewrite -KS -mulmxA SK mulmxA.
rewrite !mulmxA; apply/matrixP=> i j.
have D (A B : 'M[R]_n) : (A + B) i j = A i j + B i j by rewrite mxE.
have O (A : 'M[R]_n) : (- A) i j = - A i j by rewrite mxE.
rewrite !(D, O); mring.
Qed.
Lemma new_covariance_optimal (G : 'M[R]_(n, m)) : not_larger ((1%:M - K *m H) *m P) (error_covariance P H N G).
Proof.
move=> v; rewrite error_covariance_gain variance_add ler_addl.
exact: (covariance_prop (G - K) innovation_covariance).2.
Qed.
Lemma new_covariance_gain : error_covariance P H N K = (1%:M - K *m H) *m P.
Proof. by rewrite error_covariance_gain subrr !mul0mx addr0. Qed.
Lemma new_covariance_valid : covariance ((1%:M - K *m H) *m P).
Proof. by rewrite -new_covariance_gain; apply: covariance_add; apply: covariance_prop. Qed.
End Update.

Lemma inverse_moore_penrose n (A : 'M[R]_n) : A \in unitmx -> moore_penrose A (invmx A).
Proof.
move=> U; rewrite /moore_penrose mulmxV // mulVmx // !mul1mx trmx1 //.
Qed.
Lemma inverted_moore_penrose n (epsilon : R) (A : 'M[R]_n) : 0 <= epsilon ->
  moore_penrose A (if `|\det A - 0| <= epsilon then pseudo_inverse A else invmx A).
Proof.
move=> E; case: ifP=> D; first exact: moore_penrose_pseudo_inverse.
apply: inverse_moore_penrose; rewrite unitmxE unitfE; apply/negP=> /eqP Z.
by rewrite Z subrr normr0 E in D.
Qed.
Lemma get_new_state_value n m (epsilon : R) (f : filter R n m) x P z N : 0 <= epsilon ->
  covariance (process f) -> covariance P -> covariance N ->
  exists K, let P' := dynamics f *m P *m (dynamics f)^T + process f in
   get_new_state epsilon f x P z N =
     Returns (dynamics f *m x + K *m (z - output f *m (dynamics f *m x)), (1%:M - K *m output f) *m P') /\
   covariance ((1%:M - K *m output f) *m P') /\
   error_covariance P' (output f) N K = (1%:M - K *m output f) *m P' /\
   (forall G, not_larger ((1%:M - K *m output f) *m P') (error_covariance P' (output f) N G)) /\
   exists X, moore_penrose (output f *m P' *m (output f)^T + N) X /\ K = P' *m (output f)^T *m X.
Proof.
move=> E CQ CP CN.
have CP' : covariance (dynamics f *m P *m (dynamics f)^T + process f).
  by apply: covariance_add=> //; apply: covariance_prop.
set P' := _ + process f in CP'.
set S := output f *m P' *m (output f)^T + N.
set X := if `|\det S - 0| <= epsilon then pseudo_inverse S else invmx S.
have MP : moore_penrose S X by apply: inverted_moore_penrose.
exists (P' *m (output f)^T *m X); rewrite -/P'.
have V := new_covariance_valid CP' CN MP.
split.
  rewrite /get_new_state.
  have /is_covariance_validP -> := CP; have /is_covariance_validP -> := CN.
  rewrite /= (covariance_propagate _ CP) -/P' (covariance_propagate _ CP') -/S -/X (lower_view_sym CP'.1).
  rewrite (lower_view_sym V.1).
  by have /is_covariance_validP -> := V.
split=> //; split; first exact: new_covariance_gain.
split; first exact: new_covariance_optimal.
by exists X.
Qed.
End Proofs.
