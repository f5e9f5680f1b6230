(** Properties of the tracked points, planes and inverse depth points (C75, C76, C77). *)
From mathcomp Require Import all_ssreflect all_algebra.
From Verif Require Import FieldRing KalmanModel KalmanSpec KalmanProofs KalmanProps TrackingModel.
Import Order.TTheory GRing.Theory Num.Theory.
Set Implicit Arguments.
Unset Strict Implicit.
Unset Printing Implicit Defensive.
Local Open Scope ring_scope.

Section Props.
Variable R : realFieldType.
Variable e : R.
Hypothesis e0 : 0 <= e.

Lemma covariance_scalar n (k : R) : 0 <= k -> covariance (k%:M : 'M[R]_n).
Proof.
move=> k0; split=> [|v]; first exact: tr_scalar_mx.
by rewrite /variance mul_mx_scalar -scalemxAl mxE mulr_ge0 // sqr_norm_ge0.
Qed.
Lemma covariance_zero n : covariance (0 : 'M[R]_n).
Proof. by split=> [|v]; rewrite ?trmx0 // /variance mulmx0 mul0mx mxE. Qed.
Lemma still_covariance n k : 0 <= k -> covariance (process (still n (k : R))).
Proof. exact: covariance_scalar. Qed.
Lemma inv_ge0 k : 0 <= (10%:R ^+ k : R)^-1.
Proof. by rewrite invr_ge0 exprn_ge0 // ler0n. Qed.
(** The update of a still state *)
Lemma still_update n (k : R) x P z N : 0 <= k -> covariance P -> covariance N ->
  exists x' P', get_new_state e (still n k) x P z N = Returns (x', P') /\
    covariance P' /\ not_larger P' (P + k%:M) /\ not_larger P' N.
Proof.
move=> k0 CP CN.
have [x' [P' [G [V [L _]]]]] := C50_update x z e0 (still_covariance n k0) CP CN.
exists x', P'; split=> //; split=> //; split.
  by rewrite /= mul1mx trmx1 mulmx1 in L.
exact: (C50_measured e0 (still_covariance n k0) erefl G).
Qed.

(** ** Points (C75) *)
Lemma track_point_cases p z N :
  covariance (point_covariance p) ->
  (~ covariance N /\ track_point e p z N = (p, Refused R)) \/
  (covariance N /\ exists x P, track_point e p z N = (Point x P (moved (coordinates p) z N), Score (norm2 (coordinates p - x))) /\
     covariance P /\ not_larger P (point_covariance p + ((10%:R ^+ 3)^-1)%:M) /\ not_larger P N /\
     get_new_state e (still 3 (10%:R ^+ 3)^-1) (coordinates p) (point_covariance p) z N = Returns (x, P)).
Proof.
move=> C; rewrite /track_point; case: (boolP (is_covariance_valid N)) => VN /=; last first.
  by left; split=> // /is_covariance_validP; apply/negP.
right; move/is_covariance_validP: VN => CN; split=> //.
have -> : is_covariance_valid (point_covariance p) by apply/is_covariance_validP.
have [x' [P' [G [V [L1 L2]]]]] := still_update (coordinates p) z (inv_ge0 3) C CN.
by exists x', P'; rewrite G.
Qed.
(** After every history of measures the covariance of a point is valid and the program did not
    exit; the refused measures are those with an invalid covariance. *)
Theorem C75_history x P p measures :
  new_point x P = Some p ->
  let: (p', rs) := track_points e p measures in
  covariance (point_covariance p') /\
  size rs = size measures /\
  forall k zN r, List.nth_error measures k = Some zN -> List.nth_error rs k = Some r ->
    r <> Exits R /\ (r = Refused R <-> ~ covariance zN.2).
Proof.
rewrite /new_point; case: (boolP (is_covariance_valid P)) => //= /is_covariance_validP C [<-].
have : covariance (point_covariance (Point x P false)) by [].
elim: measures (Point x P false) => [|[z N] l IH] {C} q C /=.
  by split=> //; split=> // -[].
case: (track_point_cases z N C) => [[nC ->]|[CN [x' [P' [-> [V _]]]]]].
- have := IH q C; case: (track_points e q l) => p' rs [A [B D]]; split=> //; split; first by rewrite /= B.
  case=> [|k] zN r /=; last exact: D.
  by move=> [<-] [<-]; split.
- have := IH (Point x' P' (moved (coordinates q) z N)) V; case: (track_points e _ l) => p' rs [A [B D]]; split=> //; split; first by rewrite /= B.
  case=> [|k] zN r /=; last exact: D.
  by move=> [<-] [<-]; split=> //; split.
Qed.
(** A refused measure changes nothing; an accepted one makes the point at least as certain as
    the measure, and not less certain than it was, up to the process noise; the returned score
    is the distance between the two positions. *)
Theorem C75_track p z N :
  covariance (point_covariance p) ->
  let: (p', r) := track_point e p z N in
  (r = Refused R -> p' = p) /\
  (covariance N ->
     not_larger (point_covariance p') N /\
     not_larger (point_covariance p') (point_covariance p + ((10%:R ^+ 3)^-1)%:M) /\
     r = Score (\sum_i (coordinates p' i 0 - coordinates p i 0) ^+ 2)).
Proof.
move=> C; case: (track_point_cases z N C) => [[nC ->]|[CN [x' [P' [-> [V [L1 [L2 G]]]]]]]].
  by split.
split=> // _; split=> //; split=> //=; congr Score.
rewrite /norm2 mxE; apply: eq_bigr=> i _.
by rewrite !mxE -expr2 -sqrrN opprB.
Qed.
(** The moving flag is for the coordinates which decreased by more than the deviation. *)
Theorem C75_moving p z N p' s :
  track_point e p z N = (p', Score s) ->
  moving p' <-> exists i, 0 < coordinates p i 0 - z i 0 /\ N i i < (coordinates p i 0 - z i 0) ^+ 2.
Proof.
rewrite /track_point; case: is_covariance_valid => //=; case: is_covariance_valid => //=.
case: get_new_state => //= -[x P] [<- _] /=; split.
  by move=> /existsP[i /andP[A B]]; exists i.
by move=> [i [A B]]; apply/existsP; exists i; rewrite A B.
Qed.
(** A point which moves far in the other direction is not flagged. *)
Theorem C75_moving_refuted : forall distance : R, 0 < distance ->
  exists p z p' s, covariance (point_covariance p) /\ track_point e p z 1%:M = (p', Score s) /\
    (forall i, z i 0 - coordinates p i 0 = distance) /\ ~~ moving p'.
Proof.
move=> d d0; exists (Point 0 1%:M false), (const_mx d).
have C1 : covariance (1%:M : 'M[R]_3) by apply: covariance_scalar; apply: ler01.
have C : covariance (point_covariance (Point (0 : 'cV[R]_3) 1%:M false)) by [].
case: (track_point_cases (const_mx d) 1%:M C) => [[nC _]|[_ [x [P [T _]]]]]; first by case: nC.
do 2!eexists; split; first exact: C.
split; first exact: T.
split; first by move=> i /=; rewrite !mxE subr0.
apply/negP=> /existsP[i /andP[A _]]; move: A.
by rewrite /= !mxE sub0r oppr_gt0 ltNge (ltW d0).
Qed.

(** ** Planes (C76) *)
Section Planes.
Variables (polygon detection : Type).
Variable normalise : 'cV[R]_4 -> 'cV[R]_4.
Variable merge : 'cV[R]_4 -> polygon -> detection -> polygon * bool.
Let track := @track_plane R e polygon detection normalise merge.
Let tracks := @track_planes R e polygon detection normalise merge.
Lemma track_plane_cases p z N d :
  covariance (plane_covariance p) ->
  (~ covariance N /\ track p z N d = (p, Plane_score 0)) \/
  (covariance N /\ exists x P, let q := Plane (normalise x) P (merge (normalise x) (boundary p) d).1 in
     track p z N d = (q, if (merge (normalise x) (boundary p) d).2 then Plane_score (norm2 (parameters p - normalise x)) else Plane_throws R) /\
     covariance P /\ not_larger P (plane_covariance p + ((10%:R ^+ 6)^-1)%:M) /\ not_larger P N /\
     get_new_state e (still 4 (10%:R ^+ 6)^-1) (parameters p) (plane_covariance p) z N = Returns (x, P)).
Proof.
move=> C; rewrite /track /track_plane; case: (boolP (is_covariance_valid N)) => VN; last first.
  by left; split=> // /is_covariance_validP; apply/negP.
right; move/is_covariance_validP: VN => CN; split=> //.
have V0 : is_covariance_valid (plane_covariance p) by apply/is_covariance_validP.
have [x' [P' [G [V [L1 L2]]]]] := still_update (parameters p) z (inv_ge0 6) C CN.
by exists x', P'; rewrite V0 G /=; case: merge.
Qed.
(** For every polygon library and normalisation, and every history of measures, also after
    throws, the covariance of a plane is valid and the program did not exit. *)
Theorem C76_history p measures :
  covariance (plane_covariance p) ->
  let: (p', rs) := tracks p measures in
  covariance (plane_covariance p') /\ forall r, List.In r rs -> r <> Plane_exits R.
Proof.
rewrite /tracks; elim: measures p => [|[[z N] d] l IH] p C //=.
rewrite -[track_plane _ _ _ _ _ _ _]/(track p z N d).
case: (track_plane_cases z N d C) => [[nC ->]|[CN [x [P [-> [V _]]]]]].
  have := IH p C; case: (track_planes _ _ _ p l) => p' rs [A B]; split=> // r [<-//|]; exact: B.
have := IH (Plane (normalise x) P (merge (normalise x) (boundary p) d).1) V; case: (track_planes _ _ _ _ l) => p' rs [A B]; split=> // r [|]; last exact: B.
by case: ifP => _ <-.
Qed.
(** An accepted measure makes the plane at least as certain as the measure, and its parameters
    are normalised. *)
Theorem C76_track p z N d : covariance (plane_covariance p) -> covariance N ->
  let: (p', _) := track p z N d in
  not_larger (plane_covariance p') N /\
  not_larger (plane_covariance p') (plane_covariance p + ((10%:R ^+ 6)^-1)%:M) /\
  exists x, parameters p' = normalise x.
Proof.
move=> C CN; case: (track_plane_cases z N d C) => [[nC _]|[_ [x [P [-> [V [L1 [L2 _]]]]]]]] //=.
by split=> //; split=> //; exists x.
Qed.
(** A refused measure returns the score of a plane which did not change. *)
Theorem C76_refused p z N d : covariance (plane_covariance p) -> ~ covariance N -> track p z N d = (p, Plane_score 0).
Proof. by move=> C nC; case: (track_plane_cases z N d C) => [[_ ->]|[CN _]]. Qed.
End Planes.
(** A failed merge of the polygons throws, but the plane was changed. *)
Theorem C76_throw_changes_refuted :
  exists (p p' : plane R unit) z N, covariance (plane_covariance p) /\
    track_plane e id (fun _ b (_ : unit) => (b, false)) p z N tt = (p', Plane_throws R) /\
    plane_covariance p' <> plane_covariance p /\ parameters p' <> parameters p.
Proof.
have C1 : covariance (1%:M : 'M[R]_4) by apply: covariance_scalar; apply: ler01.
have C0 : covariance (0 : 'M[R]_4) by apply: covariance_zero.
have := @track_plane_cases unit unit id (fun _ b _ => (b, false)) (Plane 0 1%:M tt) (const_mx 1) 0 tt C1.
case=> [[nC _]|[_ [x [P [T [V [_ [L E]]]]]]]]; first by case: nC.
exists (Plane 0 1%:M tt), (Plane x P tt), (const_mx 1), 0; split=> //; split=> //.
have U : (1%:M *m 1%:M *m (1%:M)^T + ((10%:R ^+ 6)^-1)%:M : 'M[R]_4) \in unitmx.
  rewrite !mul1mx trmx1 -raddfD unitmxE det_scalar unitfE expf_neq0 //.
  by rewrite lt0r_neq0 // ltr_paddr ?inv_ge0 ?ltr01.
have [-> ->] := C50_exact_measurement e0 (still_covariance 4 (inv_ge0 6)) C1 erefl erefl U E.
split=> /=.
  by move/matrixP/(_ 0 0)/eqP; rewrite !mxE /= eq_sym oner_eq0.
by move/matrixP/(_ 0 0)/eqP; rewrite !mxE /= oner_eq0.
Qed.

(** ** Inverse depth points (C77) *)
Section InverseDepth.
Variables (coords : Type) (ch : changes R coords).
Let update := update_with_cartesian e ch.
Let updates := update_all e ch.

Lemma variance_block_diag n m (F : 'M[R]_n) (Q : 'M[R]_m) u w :
  variance (block_mx F 0 0 Q) (col_mx u w) = variance F u + variance Q w.
Proof.
rewrite /variance tr_col_mx mul_row_block mul_row_col !mulmx0 addr0 add0r.
by rewrite [LHS]mxE.
Qed.
Lemma covariance_block n m (F : 'M[R]_n) (Q : 'M[R]_m) :
  covariance F -> covariance Q -> covariance (block_mx F 0 0 Q).
Proof.
move=> [SF PF] [SQ PQ]; split; first by rewrite tr_block_mx !trmx0 SF SQ.
by move=> v; rewrite -(vsubmxK v) variance_block_diag addr_ge0.
Qed.
Lemma covariance_ul n m (A : 'M[R]_(n + m)) : covariance A -> covariance (ulsubmx A).
Proof.
move=> [S P]; split; first by rewrite trmx_ulsub S.
move=> v; have := P (col_mx v 0).
rewrite /variance -{1}(submxK A) tr_col_mx trmx0 mul_row_block mul_row_col !mul0mx mulmx0 !addr0 //.
Qed.
Lemma cartesian_covariance_value c P : covariance P ->
  exists W, cartesian_covariance ch c P = Returns W /\ covariance W /\
    W = row_mx 1%:M (world_jacobian ch c) *m P *m (row_mx 1%:M (world_jacobian ch c))^T.
Proof.
move=> C; eexists; split; last first.
  split; last by reflexivity.
  exact: covariance_prop.
rewrite /cartesian_covariance.
have -> : is_covariance_valid P by apply/is_covariance_validP.
rewrite /= (covariance_propagate _ C).
by have -> : is_covariance_valid (row_mx 1%:M (world_jacobian ch c) *m P *m (row_mx 1%:M (world_jacobian ch c))^T)
  by apply/is_covariance_validP; apply: covariance_prop.
Qed.
Lemma inverse_depth_covariance_value (P F J : 'M[R]_3) : covariance P -> covariance F ->
  inverse_depth_covariance P F (Some J) = Returns (block_mx F 0 0 (J *m P *m J^T)) /\
  covariance (block_mx F 0 0 (J *m P *m J^T)).
Proof.
move=> CP CF; have V : covariance (block_mx F 0 0 (J *m P *m J^T)).
  by apply: covariance_block=> //; apply: covariance_prop.
split=> //; rewrite /inverse_depth_covariance.
have -> : is_covariance_valid P by apply/is_covariance_validP.
have -> : is_covariance_valid F by apply/is_covariance_validP.
rewrite /= (covariance_propagate _ CP) tr_col_mx trmx0 mul_col_mx mul_col_row !mul0mx !mulmx0.
rewrite block_mxKur block_mxKdl block_mxKdr.
by have -> : is_covariance_valid (block_mx F 0 0 (J *m P *m J^T)) by apply/is_covariance_validP.
Qed.
(** The three outcomes of an update *)
Lemma update_cases p z N : covariance (id_covariance p) ->
  (~ covariance N /\ update p z N = (p, Not_updated)) \/
  (covariance N /\ exists W x P, cartesian_covariance ch (id_coords p) (id_covariance p) = Returns W /\ covariance W /\
     get_new_state e (still 3 (10%:R ^+ 4)^-1) (to_world ch (id_coords p)) W z N = Returns (x, P) /\
     covariance P /\ not_larger P N /\
     let o := first_observation ch (id_coords p) in
     let m := moved (to_world ch (id_coords p)) z N in
     match from_jacobian ch x o with
     | Some J => update p z N = (IdPoint (from_cartesian ch x o) (block_mx (ulsubmx (id_covariance p)) 0 0 (J *m P *m J^T)) m, Updated) /\
                 covariance (block_mx (ulsubmx (id_covariance p)) 0 0 (J *m P *m J^T))
     | None => update p z N = (IdPoint (from_cartesian ch x o) (id_covariance p) m, Not_updated)
     end).
Proof.
move=> C; rewrite /update /update_with_cartesian; case: (boolP (is_covariance_valid N)) => VN; last first.
  by left; split=> // /is_covariance_validP; apply/negP.
right; move/is_covariance_validP: VN => CN; split=> //.
have V0 : is_covariance_valid (id_covariance p) by apply/is_covariance_validP.
have [W [EW [CW _]]] := cartesian_covariance_value (id_coords p) C.
have [x [P [G [CP [L1 L2]]]]] := still_update (to_world ch (id_coords p)) z (inv_ge0 4) CW CN.
exists W, x, P; split=> //; split=> //; split=> //; split=> //; split=> //=.
have VP : is_covariance_valid P by apply/is_covariance_validP.
have CU := covariance_ul C.
rewrite V0 EW G VP /=.
move=> /=; case EJ: (from_jacobian ch x _) => [J|].
  by have [-> V] := inverse_depth_covariance_value J CP CU.
rewrite /inverse_depth_covariance VP.
by have -> : is_covariance_valid (ulsubmx (id_covariance p)) by apply/is_covariance_validP.
Qed.
(** After every history the covariance is valid, the program did not exit, and the covariance
    of the first pose is the one of the construction; for all changes of coordinates. *)
Theorem C77_history depth angle c state p measures :
  new_idpoint depth angle c state = Some p ->
  let: (p', rs) := updates p measures in
  covariance (id_covariance p') /\ ulsubmx (id_covariance p') = state /\
  forall r, List.In r rs -> r <> Id_exits.
Proof.
rewrite /new_idpoint; case: is_covariance_valid => //=; case: (boolP (is_covariance_valid _)) => //= /is_covariance_validP C [<-].
set p0 := IdPoint _ _ _.
have : covariance (id_covariance p0) by [].
have : ulsubmx (id_covariance p0) = state by rewrite /= block_mxKul.
rewrite /updates; elim: measures p0 => [|[z N] l IH] q U Cq //=.
rewrite -[update_with_cartesian _ _ _ _ _]/(update q z N).
case: (update_cases z N Cq) => [[_ ->]|[_ [W [x [P [_ [_ [_ [_ [_ ]]]]]]]]]].
  have := IH q U Cq; case: (update_all _ _ q l) => p' rs [A [B D]].
  by split=> //; split=> // r [<-//|]; apply: D.
move=> /=; case: (from_jacobian ch _ _) => [J [-> V]|->].
  set q' := IdPoint _ _ _.
  have U' : ulsubmx (id_covariance q') = state by rewrite /= block_mxKul.
  have := IH q' U' V; case: (update_all _ _ q' l) => p' rs [A [B D]].
  by split=> //; split=> // r [<-//|]; apply: D.
set q' := IdPoint _ _ _.
have := IH q' U Cq; case: (update_all _ _ q' l) => p' rs [A [B D]].
by split=> //; split=> // r [<-//|]; apply: D.
Qed.
Lemma covariance_diag n (f : 'I_n -> R) : (forall i, 0 <= f i) -> covariance (diag_mx (\row_i f i)).
Proof.
move=> F; split; first exact: tr_diag_mx.
move=> v; rewrite /variance mxE; apply: sumr_ge0 => i _.
rewrite mul_mx_diag !mxE mulrAC mulr_ge0 // -expr2; exact: sqr_ge0.
Qed.
(** A new point: its coordinates, the covariance of the first pose at the places 0 to 2, the
    variance of the inverse depth at the place 3 and the one of the angles at the places 4 and 5;
    nothing else. It is made exactly when the covariance of the pose is valid, for variances which
    are not negative. *)
Theorem C77_created (depth angle : R) (c : coords) state : 0 <= depth -> 0 <= angle ->
  (covariance state <-> new_idpoint depth angle c state <> None) /\
  forall p, new_idpoint depth angle c state = Some p ->
    id_coords p = c /\ id_moving p = false /\
    (forall i j : 'I_3, id_covariance p (lshift 3 i) (lshift 3 j) = state i j) /\
    forall i j : 'I_(3 + 3), (3 <= i)%N || (3 <= j)%N ->
      id_covariance p i j = if i == j then if i == 3%N :> nat then depth else angle else 0.
Proof.
move=> D A; have CB : covariance state -> covariance (block_mx state 0 0 (diag_mx (\row_i (if (i == 0 :> 'I_3) then depth else angle)))).
  by move=> C; apply: covariance_block=> //; apply: covariance_diag=> i; case: ifP.
rewrite /new_idpoint; split.
  split; first by move=> C; have -> : is_covariance_valid state by [apply/is_covariance_validP]; move/CB/is_covariance_validP: C => ->.
  by move=> H; apply/is_covariance_validP; case: (is_covariance_valid state) H.
case: is_covariance_valid => //=; case: is_covariance_valid => //= p [<-]; split=> //; split=> //=; split.
  by move=> i j; rewrite block_mxEul.
move=> i j; rewrite -(splitK i) -(splitK j); case: (split i) => i'; case: (split j) => j' /=.
- by rewrite leqNgt ltn_ord leqNgt ltn_ord.
- by rewrite block_mxEur mxE eq_lrshift.
- by rewrite block_mxEdl mxE eq_rlshift.
rewrite block_mxEdr !mxE eq_rshift => _; rewrite mulrb; case: (i' == j') => //.
Qed.
(** A measure with an invalid covariance changes nothing; every failed update keeps the
    covariance. *)
Theorem C77_failed_update p z N : covariance (id_covariance p) ->
  let: (p', r) := update p z N in
  (~ covariance N -> r = Not_updated /\ p' = p) /\
  (r = Not_updated -> id_covariance p' = id_covariance p).
Proof.
move=> C; case: (update_cases z N C) => [[nC ->]|[CN [W [x [P [_ [_ [_ [_ [_ ]]]]]]]]]] //.
by move=> /=; case: (from_jacobian ch _ _) => [J [-> V]|->].
Qed.

(** Consistent changes of coordinates *)
Definition lawful : Prop := forall x o,
  to_world ch (from_cartesian ch x o) = x /\ first_observation ch (from_cartesian ch x o) = o /\
  forall J, from_jacobian ch x o = Some J -> world_jacobian ch (from_cartesian ch x o) *m J = 1%:M.
(** After an update the point is at the position computed by the filter, and its covariance in
    the world is the one computed by the filter plus the covariance of the first pose. *)
Theorem C77_read_back p z N p' : lawful -> covariance (id_covariance p) -> update p z N = (p', Updated) ->
  exists W x P, cartesian_covariance ch (id_coords p) (id_covariance p) = Returns W /\
    get_new_state e (still 3 (10%:R ^+ 4)^-1) (to_world ch (id_coords p)) W z N = Returns (x, P) /\
    covariance P /\ not_larger P N /\
    to_world ch (id_coords p') = x /\
    first_observation ch (id_coords p') = first_observation ch (id_coords p) /\
    cartesian_covariance ch (id_coords p') (id_covariance p') = Returns (ulsubmx (id_covariance p) + P).
Proof.
move=> L C; case: (update_cases z N C) => [[nC ->]|[CN [W [x [P [EW [CW [G [CP [LN ]]]]]]]]]] //.
have [Lw [Lf LJ]] := L x (first_observation ch (id_coords p)).
move=> /=; case EJ: (from_jacobian ch _ _) => [J|]; last by move=> /= ->.
move=> /= [-> V] [<-]; exists W, x, P; do 6!split=> //=.
have [W' [-> [_ ->]]] := cartesian_covariance_value (from_cartesian ch x (first_observation ch (id_coords p))) V.
set Jw := world_jacobian ch _; have E : Jw *m J = 1%:M by apply: LJ.
congr Returns; rewrite tr_row_mx trmx1 mul_row_block mul_row_col !mulmx0 addr0 add0r mulmx1 mul1mx.
congr (_ + _).
have -> : Jw *m (J *m P *m J^T) *m Jw^T = (Jw *m J) *m P *m (Jw *m J)^T by rewrite trmx_mul !mulmxA.
by rewrite E mul1mx trmx1 mulmx1.
Qed.
(** So the point never gets more certain than its first pose. *)
Theorem C77_never_more_certain_than_first_pose p z N p' W' : lawful -> covariance (id_covariance p) ->
  update p z N = (p', Updated) -> cartesian_covariance ch (id_coords p') (id_covariance p') = Returns W' ->
  not_larger (ulsubmx (id_covariance p)) W'.
Proof.
move=> L C U E v.
have [W [x [P [EW [G [CP [_ [_ [_ R1]]]]]]]]] := C77_read_back L C U.
move: E; rewrite R1 => -[<-]; rewrite variance_add ler_addl; exact: CP.2.
Qed.
End InverseDepth.

(** Cartesian offsets: consistent changes of coordinates, except where the jacobian is not
    finite *)
Definition offsets : changes R ('cV[R]_3 * 'cV[R]_3) :=
  Changes (fun c => c.1) (fun c => c.1 + c.2) (fun _ => 1%:M) (fun x o => (o, x - o))
    (fun x o => if x == o then None else Some 1%:M).
Lemma offsets_lawful : lawful offsets.
Proof.
move=> x o; split; first by rewrite /= addrC subrK.
split=> // J /=; case: ifP => // _ [<-]; exact: mulmx1.
Qed.
(** An exact measure leaves the point as uncertain as its first pose. *)
Theorem C77_measured_refuted :
  exists (p p' : idpoint R ('cV[R]_3 * 'cV[R]_3)) z N W', covariance (id_covariance p) /\ covariance N /\
    update_with_cartesian e offsets p z N = (p', Updated) /\
    cartesian_covariance offsets (id_coords p') (id_covariance p') = Returns W' /\ ~ not_larger W' N.
Proof.
have C1 : covariance (1%:M : 'M[R]_3) by apply: covariance_scalar; apply: ler01.
have C0 : covariance (0 : 'M[R]_3) by apply: covariance_zero.
have CB : covariance (block_mx (1%:M : 'M[R]_3) 0 0 (0 : 'M[R]_3)) by apply: covariance_block.
pose p : idpoint R ('cV[R]_3 * 'cV[R]_3) := IdPoint (0 : 'cV[R]_3, const_mx 1 : 'cV[R]_3) (block_mx 1%:M 0 0 0) false.
case: (@update_cases _ offsets p (const_mx 1) 0 CB) => [[nC _]|[_ [W [x [P [EW [CW [G [CP [L1]]]]]]]]]]; first by case: nC.
have [W2 [EW2 [_ VW]]] := cartesian_covariance_value offsets (id_coords p) CB.
have W1 : W = 1%:M.
  move: EW2; rewrite EW => -[->]; rewrite VW /= tr_row_mx !trmx1 mul_row_block mul_row_col.
  by rewrite !mulmx0 !mulmx1 !addr0.
have U : (1%:M *m W *m (1%:M)^T + ((10%:R ^+ 4)^-1)%:M : 'M[R]_3) \in unitmx.
  rewrite W1 !mul1mx trmx1 -raddfD unitmxE det_scalar unitfE expf_neq0 //.
  by rewrite lt0r_neq0 // ltr_paddr ?inv_ge0 ?ltr01.
have [Ex EP] := C50_exact_measurement e0 (still_covariance 3 (inv_ge0 4)) CW erefl erefl U G.
rewrite /= Ex ifF; last first.
  by apply/negP=> /eqP/matrixP/(_ 0 0)/eqP; rewrite !mxE oner_eq0.
move=> [UP V].
have [W3 [x3 [P3 [_ [G3 [CP3 [_ [_ [_ R3]]]]]]]]] := C77_read_back offsets_lawful (CB : covariance (id_covariance p)) UP.
exists p; do 4!eexists; split; first exact: CB.
split; first exact: C0.
split; first exact: UP.
split; first exact: R3.
move=> /(_ (delta_mx 0 0)); rewrite variance_add block_mxKul.
have -> : variance (0 : 'M[R]_3) (delta_mx 0 0) = 0 by rewrite /variance mulmx0 mul0mx mxE.
have -> : variance (1%:M : 'M[R]_3) (delta_mx 0 0) = 1.
  by rewrite /variance mulmx1 trmx_delta mul_delta_mx mxE !eqxx.
have P30 : 0 <= variance P3 (delta_mx 0 0).
  exact: CP3.2.
by rewrite leNgt ltr_paddr // ltr01.
Qed.
(** A failed update moves the point, and keeps its covariance, when the new position is such that
    the jacobian is not finite. *)
Theorem C77_failed_update_moves_refuted :
  exists (p p' : idpoint R ('cV[R]_3 * 'cV[R]_3)) z N, covariance (id_covariance p) /\ covariance N /\
    update_with_cartesian e offsets p z N = (p', Not_updated) /\
    to_world offsets (id_coords p') <> to_world offsets (id_coords p).
Proof.
have C1 : covariance (1%:M : 'M[R]_3) by apply: covariance_scalar; apply: ler01.
have C0 : covariance (0 : 'M[R]_3) by apply: covariance_zero.
have CB : covariance (block_mx (1%:M : 'M[R]_3) 0 0 (0 : 'M[R]_3)) by apply: covariance_block.
pose p : idpoint R ('cV[R]_3 * 'cV[R]_3) := IdPoint (0 : 'cV[R]_3, const_mx 1 : 'cV[R]_3) (block_mx 1%:M 0 0 0) false.
case: (@update_cases _ offsets p 0 0 CB) => [[nC _]|[_ [W [x [P [EW [CW [G [CP [L1]]]]]]]]]]; first by case: nC.
have [W2 [EW2 [_ VW]]] := cartesian_covariance_value offsets (id_coords p) CB.
have W1 : W = 1%:M.
  move: EW2; rewrite EW => -[->]; rewrite VW /= tr_row_mx !trmx1 mul_row_block mul_row_col.
  by rewrite !mulmx0 !mulmx1 !addr0.
have U : (1%:M *m W *m (1%:M)^T + ((10%:R ^+ 4)^-1)%:M : 'M[R]_3) \in unitmx.
  rewrite W1 !mul1mx trmx1 -raddfD unitmxE det_scalar unitfE expf_neq0 //.
  by rewrite lt0r_neq0 // ltr_paddr ?inv_ge0 ?ltr01.
have [Ex EP] := C50_exact_measurement e0 (still_covariance 3 (inv_ge0 4)) CW erefl erefl U G.
rewrite /= Ex eqxx => UP.
exists p; do 3!eexists; split; first exact: CB.
split; first exact: C0.
split; first exact: UP.
rewrite /= !add0r ?subr0 ?oppr0 ?addr0 => /matrixP/(_ 0 0)/eqP; rewrite !mxE eq_sym oner_eq0 //.
Qed.
End Props.

(** ** Examples *)
Example C75_example : exists p, new_point (0 : 'cV[rat]_3) 1%:M = Some p.
Proof.
rewrite /new_point; have -> : is_covariance_valid (1%:M : 'M[rat]_3); last by eexists.
by apply/is_covariance_validP; apply: covariance_scalar.
Qed.
Example C77_example : exists p, new_idpoint (1 : rat) 1 (0 : 'cV[rat]_3, const_mx 1 : 'cV[rat]_3) 1%:M = Some p.
Proof.
have C1 : covariance (1%:M : 'M[rat]_3) by apply: covariance_scalar.
rewrite /new_idpoint; have -> : is_covariance_valid (1%:M : 'M[rat]_3) by apply/is_covariance_validP.
have -> : (\row_(i < 3) (if i == 0 then 1 else 1 : rat)) = const_mx 1 by apply/matrixP=> i j; rewrite !mxE; case: ifP.
rewrite diag_const_mx /=; have -> : is_covariance_valid (block_mx (1%:M : 'M[rat]_3) 0 0 (1%:M : 'M[rat]_3)); last by eexists.
by apply/is_covariance_validP; apply: covariance_block.
Qed.

Print Assumptions C75_history.
Print Assumptions C77_read_back.
Print Assumptions C77_created.
