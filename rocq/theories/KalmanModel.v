(** Model of the Kalman filters and of the validity test of covariances.
    Source: /repo/src/tracking/kalman_filter.hpp, /repo/src/utils/covariances.hpp.
    Numbers are the elements of any ordered field: rounding, infinities and NaN are not modelled. *)
From mathcomp Require Import all_ssreflect all_algebra.
Import Order.TTheory GRing.Theory Num.Theory.
Set Implicit Arguments.
Unset Strict Implicit.
Unset Printing Implicit Defensive.
Local Open Scope ring_scope.

Section Kalman.
Variable R : realFieldType.

(** Eigen's [selfadjointView<Lower>]: the symmetric matrix with the same lower part *)
Definition lower_view n (A : 'M[R]_n) : 'M[R]_n := \matrix_(i, j) if (j <= i)%N then A i j else A j i.
Definition upper_view n (A : 'M[R]_n) : 'M[R]_n := \matrix_(i, j) if (i <= j)%N then A i j else A j i.

(** Positivity of the diagonal of the LDL' factorization (Eigen's [ldlt], [isPositive]).
    Eigen's choice of pivots is not modelled: the pivots are taken in order, and the column of
    a null pivot must be null. *)
Fixpoint ldlt_positive n : 'M[R]_n -> bool :=
  match n with
  | 0%N => fun _ => true
  | p.+1 => fun A : 'M_(1 + p) =>
      let pivot := ulsubmx A 0 0 in
      let column := dlsubmx A in
      let rest := drsubmx A in
      if pivot < 0 then false
      else if pivot == 0 then (column == 0) && ldlt_positive rest
      else ldlt_positive (rest - pivot^-1 *: (column *m column^T))
  end.
(** [is_covariance_valid], covariances.hpp:14-44. [isApprox] is the equality here. In dimension
    1 (22-25) the test is the same as the general one. *)
Definition is_covariance_valid n (A : 'M[R]_n) : bool := (A == A^T) && ldlt_positive (upper_view A).
(** [propagate_covariance], covariances.hpp:55-64, with a null epsilon *)
Definition propagate_covariance n m (covariance : 'M[R]_n) (jacobian : 'M[R]_(m, n)) : 'M[R]_m :=
  lower_view (jacobian *m lower_view covariance *m jacobian^T).

(** Eigen's [completeOrthogonalDecomposition().pseudoInverse()], computed from a full rank
    factorization *)
Definition pseudo_inverse n (A : 'M[R]_n) : 'M[R]_n :=
  (row_base A)^T *m invmx (row_base A *m (row_base A)^T)
    *m invmx ((col_base A)^T *m col_base A) *m (col_base A)^T.

(** [SharedKalmanFilter], kalman_filter.hpp:18-112 *)
Record filter n m := Filter { dynamics : 'M[R]_n; output : 'M[R]_(m, n); process : 'M[R]_n }.
Inductive outcome (A : Type) := Returns of A | Invalid_argument | Logic_error.
Arguments Invalid_argument {A}.
Arguments Logic_error {A}.

(** [get_new_state], 45-103; [epsilon] is the one of [double_equal] *)
Definition get_new_state n m (epsilon : R) (f : filter n m) (state : 'cV[R]_n) (covariance : 'M[R]_n)
    (measurement : 'cV[R]_m) (noise : 'M[R]_m) : outcome ('cV[R]_n * 'M[R]_n) :=
  if ~~ is_covariance_valid covariance then Invalid_argument
  else if ~~ is_covariance_valid noise then Invalid_argument
  else
    let new_estimate := dynamics f *m state in
    let error := propagate_covariance covariance (dynamics f) + process f in
    let innovation := propagate_covariance error (output f) + noise in
    let inverted := if `|\det innovation - 0| <= epsilon then pseudo_inverse innovation else invmx innovation in
    let gain := lower_view error *m (output f)^T *m inverted in
    let new_state := new_estimate + gain *m (measurement - output f *m new_estimate) in
    let new_covariance := lower_view ((1%:M - gain *m output f) *m lower_view error) in
    if ~~ is_covariance_valid new_covariance then Logic_error
    else Returns (new_state, new_covariance).

(** [KalmanFilter], 117-199. Before [init] the state and the covariance are not initialised:
    they are not read before. *)
Record tracker n m := Tracker
  { shared : filter n m; initialized : bool; estimate : 'cV[R]_n; estimate_covariance : 'M[R]_n }.
Definition new_tracker n m (f : filter n m) : tracker n m := Tracker f false 0 0.
(** [init], 141-147 *)
Definition init n m (t : tracker n m) (covariance : 'M[R]_n) (x0 : 'cV[R]_n) : tracker n m :=
  Tracker (shared t) true x0 covariance.
(** [update], 154-168: the tracker after the call, and whether it threw *)
Definition update n m (epsilon : R) (t : tracker n m) (measurement : 'cV[R]_m) (noise : 'M[R]_m)
    : tracker n m * outcome unit :=
  if ~~ initialized t then (t, Logic_error)
  else match get_new_state epsilon (shared t) (estimate t) (estimate_covariance t) measurement noise with
       | Returns (x, P) => (Tracker (shared t) true x P, Returns tt)
       | Invalid_argument => (t, Invalid_argument)
       | Logic_error => (t, Logic_error)
       end.
(** [update] with a new dynamics matrix, 176-182 (its measurement has the dimension of the
    state in the source, so it only compiles for [m = n]) *)
Definition update_with n (epsilon : R) (t : tracker n n) (measurement : 'cV[R]_n) (noise : 'M[R]_n)
    (new_dynamics : 'M[R]_n) : tracker n n * outcome unit :=
  update epsilon
    (Tracker (Filter new_dynamics (output (shared t)) (process (shared t))) (initialized t) (estimate t) (estimate_covariance t))
    measurement noise.
(** Histories of calls *)
Inductive call n := Init of 'M[R]_n & 'cV[R]_n | Update of 'cV[R]_n & 'M[R]_n
  | Update_with of 'cV[R]_n & 'M[R]_n & 'M[R]_n.
Definition step n (epsilon : R) (t : tracker n n) (c : call n) : tracker n n * outcome unit :=
  match c with
  | Init P x => (init t P x, Returns tt)
  | Update z N => update epsilon t z N
  | Update_with z N F => update_with epsilon t z N F
  end.
Fixpoint run n (epsilon : R) (t : tracker n n) (calls : seq (call n)) : tracker n n * seq (outcome unit) :=
  match calls with
  | [::] => (t, [::])
  | c :: l => let: (t', o) := step epsilon t c in let: (t'', os) := run epsilon t' l in (t'', o :: os)
  end.
End Kalman.
Arguments Invalid_argument {A}.
Arguments Logic_error {A}.
