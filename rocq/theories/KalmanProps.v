(** Properties of the Kalman filters (C50, C74). *)
From mathcomp Require Import all_ssreflect all_algebra.
From Verif Require Import FieldRing KalmanModel KalmanSpec KalmanProofs.
Import Order.TTheory GRing.Theory Num.Theory.
Set Implicit Arguments.
Unset Strict Implicit.
Unset Printing Implicit Defensive.
Local Open Scope ring_scope.

Section Props.
Variable R : realFieldType.

(** The validity test accepts exactly the covariances. *)
Theorem C50_validity_test n (A : 'M[R]_n) : is_covariance_valid A <-> covariance A.
Proof. exact: is_covariance_validP. Qed.
(** The inverse used for singular innovations is the one of Moore and Penrose, which is unique. *)
Theorem C50_pseudo_inverse n (A X : 'M[R]_n) : moore_penrose A X <-> X = pseudo_inverse A.
Proof.
split=> [M|->]; last exact: moore_penrose_pseudo_inverse.
by apply: (moore_penrose_unique M); apply: moore_penrose_pseudo_inverse.
Qed.

(** The update of valid covariances never throws. Its covariance is valid, not larger than the
    predicted one, and is the smallest error covariance of all the gains; the state is the one
    of the gain which reaches it. *)
Theorem C50_update n m (epsilon : R) (f : filter R n m) x P z N :
  0 <= epsilon -> covariance (process f) -> covariance P -> covariance N ->
  let predicted := dynamics f *m P *m (dynamics f)^T + process f in
  exists x' P', get_new_state epsilon f x P z N = Returns (x', P') /\
    covariance P' /\ not_larger P' predicted /\
    exists K, x' = dynamics f *m x + K *m (z - output f *m (dynamics f *m x)) /\
      P' = error_covariance predicted (output f) N K /\
      forall G, not_larger P' (error_covariance predicted (output f) N G).
Proof.
move=> E CQ CP CN predicted.
have [K [-> [V [J [O _]]]]] := get_new_state_value x z E CQ CP CN.
do 2!eexists; split; first by [].
split=> //; split; last by exists K.
move=> v; have := O 0 v; rewrite /error_covariance mul0mx subr0 trmx1 mulmx1 mul1mx !mul0mx addr0 //.
Qed.
(** It throws an invalid argument exactly for invalid covariances. *)
Theorem C50_refuses n m (epsilon : R) (f : filter R n m) x P z N :
  0 <= epsilon -> covariance (process f) ->
  (get_new_state epsilon f x P z N = Invalid_argument <-> ~ (covariance P /\ covariance N)) /\
  get_new_state epsilon f x P z N <> Logic_error.
Proof.
move=> E CQ.
case: (boolP (is_covariance_valid P)) => VP; last first.
  have -> : get_new_state epsilon f x P z N = Invalid_argument by rewrite /get_new_state VP.
  split=> //; split=> // _ [C _]; move/negP: VP; apply; exact/is_covariance_validP.
case: (boolP (is_covariance_valid N)) => VN; last first.
  have -> : get_new_state epsilon f x P z N = Invalid_argument by rewrite /get_new_state VP /= VN.
  split=> //; split=> // _ [_ C]; move/negP: VN; apply; exact/is_covariance_validP.
move/is_covariance_validP: VP => CP; move/is_covariance_validP: VN => CN.
have [x' [P' [-> _]]] := C50_update x z E CQ CP CN.
by split=> //; split=> // H; case: H.
Qed.
(** When the whole state is measured, it is not larger than the covariance of the measurement. *)
Theorem C50_measured n (epsilon : R) (f : filter R n n) x P z N x' P' :
  0 <= epsilon -> covariance (process f) -> output f = 1%:M ->
  get_new_state epsilon f x P z N = Returns (x', P') -> not_larger P' N.
Proof.
move=> E CQ H G.
have [CP CN] : covariance P /\ covariance N.
  split; apply/is_covariance_validP; move: G; rewrite /get_new_state.
    by case: is_covariance_valid.
  by case: is_covariance_valid=> //=; case: is_covariance_valid.
have [x2 [P2 [G2 [_ [_ [K [_ [_ O]]]]]]]] := C50_update x z E CQ CP CN.
have [_ <-] : (x2, P2) = (x', P') by move: G2; rewrite G => -[-> ->].
move=> v; have := O 1%:M v.
by rewrite /error_covariance H mulmx1 subrr !mul0mx add0r mul1mx trmx1 mulmx1.
Qed.
(** An exact measurement of a state which is uncertain in all directions is the new state, and
    a certain state does not move. *)
Theorem C50_exact_measurement n (epsilon : R) (f : filter R n n) x P z N x' P' :
  0 <= epsilon -> covariance (process f) -> covariance P -> N = 0 -> output f = 1%:M ->
  dynamics f *m P *m (dynamics f)^T + process f \in unitmx ->
  get_new_state epsilon f x P z N = Returns (x', P') -> x' = z /\ P' = 0.
Proof.
move=> E CQ CP N0 H U G.
have CN : covariance N by rewrite N0; split=> [|v]; rewrite ?trmx0 // /variance mulmx0 mul0mx mxE.
have [K [G2 [_ [_ [_ [X [MP EK]]]]]]] := get_new_state_value x z E CQ CP CN.
set P1 := _ + process f in U G2 MP EK.
rewrite H N0 trmx1 mulmx1 mul1mx addr0 in MP.
rewrite H trmx1 mulmx1 in EK.
have K1 : K = 1%:M.
  rewrite EK (moore_penrose_unique MP (inverse_moore_penrose U)) mulmxV //.
move: G; rewrite G2 K1 H ?mul1mx ?mulmx1 subrr mul0mx=> -[<- <-].
by rewrite addrC subrK.
Qed.
Theorem C50_certain_state n m (epsilon : R) (f : filter R n m) x P z N x' P' :
  0 <= epsilon -> covariance (process f) -> covariance P -> covariance N ->
  dynamics f *m P *m (dynamics f)^T + process f = 0 ->
  get_new_state epsilon f x P z N = Returns (x', P') -> x' = dynamics f *m x /\ P' = 0.
Proof.
move=> E CQ CP CN Z.
have [K [-> [_ [_ [_ [X [_ ->]]]]]]] := get_new_state_value x z E CQ CP CN.
by rewrite Z !mul0mx addr0 mulmx0 => -[<- <-].
Qed.
(** In one dimension the new state is between the prediction and the measurement. *)
Theorem C50_one_dimension (epsilon : R) (f : filter R 1 1) x P z N x' P' :
  0 <= epsilon -> covariance (process f) -> output f = 1%:M ->
  get_new_state epsilon f x P z N = Returns (x', P') ->
  exists k, 0 <= k <= 1 /\ x' 0 0 = (1 - k) * (dynamics f *m x) 0 0 + k * z 0 0.
Proof.
move=> E CQ H G.
have [CP CN] : covariance P /\ covariance N.
  split; apply/is_covariance_validP; move: G; rewrite /get_new_state.
    by case: is_covariance_valid.
  by case: is_covariance_valid=> //=; case: is_covariance_valid.
have [K [G2 [V [J [O [X [MP EK]]]]]]] := get_new_state_value x z E CQ CP CN.
set P1 := _ + process f in G2 V J O MP EK.
move: G; rewrite G2 => -[<- _].
rewrite H mul1mx {G2}.
have C1 : covariance P1 by apply: covariance_add=> //; apply: covariance_prop.
have S1 (A : 'M[R]_1) : variance A 1%:M = A 0 0 by rewrite /variance trmx1 mul1mx mulmx1.
set k := K 0 0.
have M1 (A B : 'M[R]_1) : (A *m B) 0 0 = A 0 0 * B 0 0 by rewrite mxE big_ord1.
have D1 : (1%:M - K) 0 0 = 1 - k by rewrite /k [LHS]mxE [X in X + _]mxE [X in _ + X]mxE.
have p0 : 0 <= P1 0 0 by rewrite -S1; apply: C1.2.
have v0 : 0 <= (1 - k) * P1 0 0.
  by have := V.2 1%:M; rewrite S1 H mulmx1 M1 D1.
have v1 : (1 - k) * P1 0 0 <= P1 0 0.
  have := O 0 1%:M; rewrite /error_covariance mul0mx subr0 trmx1 mulmx1 mul1mx !mul0mx addr0 !S1 H mulmx1.
  by rewrite M1 D1.
have kb : 0 <= k <= 1.
  move: p0; rewrite le0r => /orP[/eqP p0|pp].
    have -> : k = 0 by rewrite /k EK -mulmxA M1 p0 mul0r.
    by rewrite lexx ler01.
  have k1 : k <= 1 by rewrite -subr_ge0 -(pmulr_lge0 _ pp).
  by rewrite k1 andbT; move: v1; rewrite -{2}[P1 0 0]mul1r ler_pmul2r // ler_subl_addr ler_addl.
exists k; split=> //.
have -> : (dynamics f *m x + K *m (z - dynamics f *m x)) 0 0 =
   (dynamics f *m x) 0 0 + k * (z 0 0 - (dynamics f *m x) 0 0).
  by rewrite mxE [X in _ + X]mxE big_ord1 [(z - _) 0 0]mxE [(- (_ *m _)) 0 0]mxE.
by rewrite mulrBr mulrBl mul1r addrA addrAC.
Qed.

(** The scalar update in closed form. *)
Theorem C50_scalar (a b p r : R) : 0 <= p -> 0 <= r -> 0 < p + r ->
  get_new_state 0 (Filter 1%:M 1%:M 0) a%:M p%:M b%:M r%:M =
  Returns ((a + p / (p + r) * (b - a))%:M : 'M[R]_1, ((1 - p / (p + r)) * p)%:M).
Proof.
move=> p0 r0 s0.
have V (x : R) : 0 <= x -> is_covariance_valid (x%:M : 'M[R]_1).
  move=> x0; apply/is_covariance_validP; split; first by rewrite tr_scalar_mx.
  by move=> v; rewrite /variance mul_mx_scalar -scalemxAl mxE mulr_ge0 // sqr_norm_ge0.
have S (A : 'M[R]_1) : lower_view A = A by rewrite lower_view_sym // scalar_tr.
have k1 : 0 <= (1 - p / (p + r)) * p.
  by rewrite mulr_ge0 // subr_ge0 ler_pdivr_mulr // mul1r ler_addl.
rewrite /get_new_state !V // /= /propagate_covariance !S !trmx1 !mul1mx !mulmx1 addr0.
rewrite -raddfD /= det_scalar1 subr0 normr_le0 (gt_eqF s0).
rewrite invmx_scalar -raddfB -!scalar_mxM -raddfD -raddfB -scalar_mxM /=.
by rewrite V.
Qed.

(** ** The filter of one system: histories of calls (C74) *)

(** The covariances given to [init] are valid *)
Definition valid_inits n (calls : seq (call R n)) : Prop :=
  forall P x, List.In (Init P x) calls -> covariance P.
Lemma run_cat n (e : R) (t : tracker R n n) l1 l2 :
  (run e t (l1 ++ l2)).1 = (run e (run e t l1).1 l2).1.
Proof.
elim: l1 t => [|c l IH] t //=; case: (step e t c) => t' o.
by move: (IH t'); case: (run e t' (l ++ l2)) => a b /= ->; case: (run e t' l).
Qed.
Definition sound n (t : tracker R n n) : Prop :=
  covariance (process (shared t)) /\ (initialized t -> covariance (estimate_covariance t)).
Lemma update_sound n (e : R) (t : tracker R n n) z N : 0 <= e -> sound t -> sound (update e t z N).1.
Proof.
move=> E [CQ C]; rewrite /update; case I: (initialized t) => //=.
have {}C := C I.
case: (boolP (is_covariance_valid N)) => VN; last first.
  have -> : get_new_state e (shared t) (estimate t) (estimate_covariance t) z N = Invalid_argument.
    by rewrite /get_new_state; case: ifP=> // _; rewrite VN.
  by split.
move/is_covariance_validP: VN => CN.
have [x' [P' [-> [V _]]]] := C50_update (estimate t) z E CQ C CN.
by split.
Qed.
Lemma step_sound n (e : R) (t : tracker R n n) c : 0 <= e -> sound t ->
  (forall P x, c = Init P x -> covariance P) -> sound (step e t c).1.
Proof.
move=> E S V; case: c V => [P x|z N|z N F] V /=.
- by split; [exact: S.1|move=> _; apply: V].
- exact: update_sound.
- by apply: update_sound=> //; case: S.
Qed.
Lemma run_sound n (e : R) (t : tracker R n n) calls : 0 <= e -> sound t -> valid_inits calls -> sound (run e t calls).1.
Proof.
move=> E; elim: calls t => [|c l IH] t S V //=.
have S' : sound (step e t c).1 by apply: step_sound=> // P x Ec; apply: (V P x); left; rewrite Ec.
case: (step e t c) S' => t' o /= S'.
have : sound (run e t' l).1 by apply: IH=> // P x I; apply: (V P x); right.
by case: (run e t' l).
Qed.
(** After every history, the covariance of an initialised filter is valid. *)
Theorem C74_covariance_valid n (e : R) (f : filter R n n) calls :
  0 <= e -> covariance (process f) -> valid_inits calls ->
  let t := (run e (new_tracker f) calls).1 in
  initialized t -> covariance (estimate_covariance t).
Proof.
by move=> E CQ V /= I; apply: (run_sound (t := new_tracker f) E _ V).2.
Qed.
(** After every history, an update is refused exactly before the initialisation or for an
    invalid noise; the estimation is then unchanged. *)
Theorem C74_refusals n (e : R) (f : filter R n n) calls z N :
  0 <= e -> covariance (process f) -> valid_inits calls ->
  let t := (run e (new_tracker f) calls).1 in
  let: (t', o) := update e t z N in
  (o = Logic_error <-> ~~ initialized t) /\
  (o = Invalid_argument <-> initialized t /\ ~ covariance N) /\
  (o <> Returns tt -> t' = t).
Proof.
move=> E CQ V t; have [CQ' C] : sound t by apply: run_sound.
rewrite /update; case I: (initialized t) => /=; last by split=> //; split=> //; split=> // -[].
have {}C := C I.
have [[Ri Rc] Rl] := C50_refuses (estimate t) (estimate_covariance t) z N E CQ'.
case G: get_new_state => [[x' P']||].
- split; first by split.
  split=> //; split=> // -[_ nC].
  by have : Returns (x', P') = Invalid_argument by rewrite -G; apply: Rc => -[].
- split; first by split.
  split=> //; split=> // _; split=> // CN; by case: (Ri G).
- by case: Rl.
Qed.
(** Without dynamics and process noise, no update makes any combination of the coordinates less
    certain. *)
Definition is_update n (c : call R n) : bool := if c is Update _ _ then true else false.
Theorem C74_never_less_certain n (e : R) (H : 'M[R]_n) P0 x0 calls1 calls2 :
  0 <= e -> covariance P0 -> all (@is_update n) calls1 -> all (@is_update n) calls2 ->
  let t := init (new_tracker (Filter 1%:M H 0)) P0 x0 in
  not_larger (estimate_covariance (run e t (calls1 ++ calls2)).1) (estimate_covariance (run e t calls1).1).
Proof.
move=> E C0 U1 U2 t.
have CZ : covariance (0 : 'M[R]_n) by split=> [|v]; rewrite ?trmx0 // /variance mulmx0 mul0mx mxE.
have G calls (s : tracker R n n) : all (@is_update n) calls -> initialized s -> shared s = Filter 1%:M H 0 -> covariance (estimate_covariance s) ->
   let r := (run e s calls).1 in
   initialized r /\ shared r = Filter 1%:M H 0 /\ covariance (estimate_covariance r) /\ not_larger (estimate_covariance r) (estimate_covariance s).
  elim: calls s => [|c l IH] s /=; first by move=> _ I S C; split=> //; split=> //; split=> // v.
  move=> /andP[Uc Ul] I S C.
  case: c Uc => // z N _ /=; rewrite /update I /=.
  case G: get_new_state => [[x' P']||].
  - have [CP CN] : covariance (estimate_covariance s) /\ covariance N.
      split=> //; apply/is_covariance_validP; move: G; rewrite /get_new_state.
      by case: is_covariance_valid=> //=; case: is_covariance_valid.
    have CQs : covariance (process (shared s)) by rewrite S.
    have [x2 [P2 [G2 [V2 [L2 _]]]]] := C50_update (estimate s) z E CQs CP CN.
    have [_ EP] : x2 = x' /\ P2 = P' by move: G2; rewrite G => -[-> ->].
    rewrite EP S /= mul1mx trmx1 mulmx1 addr0 in V2 L2.
    have [A [B [D F]]] := IH (Tracker (shared s) true x' P') Ul isT S V2.
    case: (run e _ l) A B D F => r os /= A B D F; split=> //; split=> //; split=> //.
    by move=> v; apply: le_trans (F v) (L2 v).
  - have := IH s Ul I S C; by case: (run e s l).
  - have := IH s Ul I S C; by case: (run e s l).
have [I1 [S1 [C1 _]]] := G calls1 t U1 isT erefl C0.
rewrite run_cat; by have [_ [_ [_ L]]] := G calls2 _ U2 I1 S1 C1.
Qed.
(** An invalid covariance given to [init] is accepted, and refuses all the updates up to the
    next initialisation. *)
Definition is_init n (c : call R n) : bool := if c is Init _ _ then true else false.
Theorem C74_invalid_init n (e : R) (t : tracker R n n) P x calls :
  ~ covariance P -> ~~ has (@is_init n) calls ->
  let: (t', os) := run e (init t P x) calls in
  estimate t' = x /\ forall o, List.In o os -> o = Invalid_argument.
Proof.
move=> nC.
have G (s : tracker R n n) : initialized s -> estimate_covariance s = P -> estimate s = x -> ~~ has (@is_init n) calls ->
  let: (t', os) := run e s calls in estimate t' = x /\ forall o, List.In o os -> o = Invalid_argument.
  have nV : is_covariance_valid P = false by apply/negP=> /is_covariance_validP.
  elim: calls s => [|c l IH] s I EP Ex //=; rewrite negb_or => /andP[Uc Ul].
  have Z c0 s0 : ~~ is_init c0 -> initialized s0 -> estimate_covariance s0 = P -> estimate s0 = x ->
      exists s1, step e s0 c0 = (s1, Invalid_argument) /\ initialized s1 /\ estimate_covariance s1 = P /\ estimate s1 = x.
    case: c0 => // [z N|z N F] _ I0 E0 X0 /=; rewrite /update_with /update /= I0 /= /get_new_state E0 nV /=.
      by exists s0.
    by eexists; split.
  have [s1 [-> [I1 [E1 X1]]]] := Z c s Uc I EP Ex.
  have := IH s1 I1 E1 X1 Ul; case: (run e s1 l) => t' os [A B]; split=> // o [<-//|]; exact: B.
by move=> U; have := G (init t P x) isT erefl erefl U.
Qed.
(** A refused update with new dynamics keeps these dynamics. *)
Theorem C74_refused_dynamics_refuted :
  exists (t t' : tracker R 1 1) z N F, update_with 0 t z N F = (t', Invalid_argument) /\
    sound t /\ initialized t /\ dynamics (shared t') <> dynamics (shared t).
Proof.
exists (init (new_tracker (Filter 1%:M 1%:M 0)) 0 0).
exists (init (new_tracker (Filter 0 1%:M 0)) 0 0), 0, (- 1%:M), 0; split.
  rewrite /update_with /update /= /get_new_state.
  have -> : is_covariance_valid (0 : 'M[R]_1).
    by apply/is_covariance_validP; split=> [|v]; rewrite ?trmx0 // /variance mulmx0 mul0mx mxE.
  have -> : is_covariance_valid (- 1%:M : 'M[R]_1) = false.
    apply/negP=> /is_covariance_validP [_ /(_ 1%:M)].
    by rewrite /variance trmx1 mul1mx mulmx1 !mxE /= oppr_ge0 ler10.
  by [].
have CZ : covariance (0 : 'M[R]_1) by split=> [|v]; rewrite ?trmx0 // /variance mulmx0 mul0mx mxE.
split; first by split.
by split=> //= /matrixP/(_ 0 0)/eqP; rewrite !mxE /= eq_sym oner_eq0.
Qed.
End Props.

(** ** Examples *)
(** two measures of variance 1 of a scalar: the mean, with the variance 1/2 *)
Example C50_example :
  get_new_state 0 (Filter 1%:M 1%:M 0) (2%:R)%:M 1%:M (4%:R)%:M 1%:M = Returns ((3%:R)%:M : 'M[rat]_1, (2%:R^-1)%:M).
Proof. by rewrite C50_scalar. Qed.
(** a certain state and a certain measurement, singular innovation *)
Example C50_example_singular :
  exists x P, get_new_state 0 (Filter 1%:M 1%:M 0) (2%:R)%:M 0 (4%:R)%:M 0 = Returns (x : 'M[rat]_1, P).
Proof.
have CZ : covariance (0 : 'M[rat]_1) by split=> [|v]; rewrite ?trmx0 // /variance mulmx0 mul0mx mxE.
have [x [P [-> _]]] := @C50_update _ 1 1 0 (Filter 1%:M 1%:M 0) (2%:R)%:M 0 (4%:R)%:M 0 (lexx _) CZ CZ CZ.
by exists x, P.
Qed.

Print Assumptions C50_update.
Print Assumptions C74_refusals.
