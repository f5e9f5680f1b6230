(** Vocabulary in which the feature map properties are stated: executions of a
    map, the observable fate of a feature at each operation, and counts over a
    history. Nothing here is used by the model. *)
From Coq Require Import Permutation.
From Verif Require Import FeatureMapModel.

Section Spec.
Context {D Det Ctx View Mt U : Type}.
Notation pol_t := (policy D Det Ctx View Mt U).
Notation feat := (feat D).
Notation fmap := (fmap D).
Notation fstate := (fstate D).
Notation fop := (fop Det Ctx View U).

(** identifiers stored in a container *)
Definition keys (m : fmap) : list N := map fst m.

Definition in_local (i : N) (s : fstate) : Prop := In i (keys (s_local s)).
Definition in_staged (i : N) (s : fstate) : Prop := In i (keys (s_staged s)).
Definition in_map (i : N) (s : fstate) : Prop := in_local i s \/ in_staged i s.

(** All identifiers stored in a family of maps. *)
Definition ids (s : fstate) : list N := keys (s_local s) ++ keys (s_staged s).
Definition all_ids (ms : list (pol_t * fstate)) : list N := flat_map (fun ps => ids (snd ps)) ms.

(** Same content, other iteration order: what an [unordered_map] may do between
    any two operations. *)
Definition same_content (s s' : fstate) : Prop :=
  s_active s' = s_active s /\ s_flags s' = s_flags s /\
  Permutation (s_local s) (s_local s') /\ Permutation (s_staged s) (s_staged s').

(** A family of maps sharing the identifier allocator and the output: one
    operation of one of them, or a change of iteration order. *)
Inductive sys_step : list (pol_t * fstate) * shared -> list (pol_t * fstate) * shared -> Prop :=
| sys_op : forall pre p s s' post g g' fuel o,
    fexec p fuel o s g = Ret (s', g') ->
    sys_step (pre ++ (p, s) :: post, g) (pre ++ (p, s') :: post, g')
| sys_rehash : forall pre p s s' post g,
    same_content s s' ->
    sys_step (pre ++ (p, s) :: post, g) (pre ++ (p, s') :: post, g).

Inductive sys_steps : list (pol_t * fstate) * shared -> list (pol_t * fstate) * shared -> Prop :=
| sys_refl : forall x, sys_steps x x
| sys_trans : forall x y z, sys_steps x y -> sys_step y z -> sys_steps x z.

(** the maps of [pols], all empty *)
Definition sys_init (pols : list pol_t) : list (pol_t * fstate) * shared :=
  (map (fun p => (p, init)) pols, init_shared).

Definition sys_reachable (pols : list pol_t) (x : list (pol_t * fstate) * shared) : Prop :=
  sys_steps (sys_init pols) x.

(** ** One map: histories *)

(** did one of the matched detections update the feature? *)
Fixpoint any_success (p : pol_t) (c : Ctx) (dets : list Det) (is : list nat) (d : D) : bool :=
  match is with
  | [] => false
  | i :: is' =>
    match nth_error dets i with
    | None => false
    | Some det => let '(d', ok) := p_update p c d det in ok || any_success p c dets is' d'
    end
  end.

(** What an operation, started in a state, does to feature [f] of this state *)
Inductive fate := Hit | Miss | Untouched.

Definition fate_of (p : pol_t) (o : fop) (s : fstate) (f : feat) : fate :=
  if negb (s_active s) then Untouched
  else match o with
  | FUpdate c covOk dets =>
    if covOk then if any_success p c dets (f_matches f) (f_data f) then Hit else Miss
    else Untouched
  | FNoTracking => Miss
  | _ => Untouched
  end.

(** A history: the operations, each with the state it started in. *)
Definition history := list (fop * fstate).

(** Number of consecutive misses of the local feature [i] at the end of the
    history, counted from the moment it is in the local map. *)
Definition misses_step (p : pol_t) (i : N) (n : N) (e : fop * fstate) : N :=
  match lookup i (s_local (snd e)) with
  | None => 0
  | Some f => match fate_of p (fst e) (snd e) f with Hit => 0 | Miss => n + 1 | Untouched => n end
  end.
Definition misses (p : pol_t) (i : N) (h : history) : N := fold_left (misses_step p i) h 0%N.

(** Same count while the feature is staged, and number of hits minus number of
    misses since it was staged. *)
Definition staged_misses_step (p : pol_t) (i : N) (n : N) (e : fop * fstate) : N :=
  match lookup i (s_staged (snd e)) with
  | None => 0
  | Some f => match fate_of p (fst e) (snd e) f with Hit => 0 | Miss => n + 1 | Untouched => n end
  end.
Definition staged_misses (p : pol_t) (i : N) (h : history) : N := fold_left (staged_misses_step p i) h 0%N.

Definition net_hits_step (p : pol_t) (i : N) (n : Z) (e : fop * fstate) : Z :=
  match lookup i (s_staged (snd e)) with
  | None => 0
  | Some f => match fate_of p (fst e) (snd e) f with Hit => n + 1 | Miss => n - 1 | Untouched => n end
  end.
Definition net_hits (p : pol_t) (i : N) (h : history) : Z := fold_left (net_hits_step p i) h 0%Z.

(** Executions of one map inside a family: its own operations, changes of
    iteration order, and the other maps drawing identifiers or writing. *)
Inductive run (p : pol_t) : history -> fstate -> shared -> Prop :=
| run_init : forall g, g_alloc g = g_allocs g -> run p [] init g
| run_op : forall h s g fuel o s' g',
    run p h s g -> fexec p fuel o s g = Ret (s', g') -> run p (h ++ [(o, s)]) s' g'
| run_rehash : forall h s g s', run p h s g -> same_content s s' -> run p h s' g
| run_env : forall h s g g',
    run p h s g -> g_alloc g' = g_allocs g' -> (g_allocs g <= g_allocs g')%N -> run p h s g'.

(** the payload of a feature after its matched detections were used, and the
    detections whose update succeeded *)
Fixpoint data_after (p : pol_t) (c : Ctx) (dets : list Det) (is : list nat) (d : D) : D :=
  match is with
  | [] => d
  | i :: is' =>
    match nth_error dets i with
    | None => d
    | Some det => data_after p c dets is' (fst (p_update p c d det))
    end
  end.
Fixpoint successes (p : pol_t) (c : Ctx) (dets : list Det) (is : list nat) (d : D) : list nat :=
  match is with
  | [] => []
  | i :: is' =>
    match nth_error dets i with
    | None => []
    | Some det =>
      let '(d', ok) := p_update p c d det in
      if ok then i :: successes p c dets is' d' else successes p c dets is' d'
    end
  end.

(** detection [i] was used by an update of the map in state [s] *)
Definition claimed (p : pol_t) (c : Ctx) (dets : list Det) (s : fstate) (i : nat) : Prop :=
  (exists k f, In (k, f) (s_local s) /\ In i (successes p c dets (f_matches f) (f_data f))) \/
  (exists k f, In (k, f) (s_staged s) /\ In i (f_matches f)).

(** The features to create from a frame whose detections [used] are used: one
    for each other detection that this kind of map can hold, in order. *)
Definition expected_new (p : pol_t) (c : Ctx) (dets : list Det) (used : list nat) : list D :=
  flat_map (fun id : nat * Det =>
              if existsb (Nat.eqb (fst id)) used then []
              else if p_can_add p (snd id)
              then match p_mk_staged p c (snd id) with COk d => [d] | CThrow _ => [] end
              else [])
           (combine (seq 0 (length dets)) dets).

(** local feature construction never throws *)
Definition never_throws (p : pol_t) : Prop := forall d, p_mk_local p d <> None.

End Spec.
