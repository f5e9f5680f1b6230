(** Vocabulary for the work of a whole family of maps in one frame: what each
    kind does on its own, in terms of the operations of a single map, and what
    becomes of the features that change kind. Nothing here is used by the model. *)
From Verif Require Import FeatureMapModel FeatureMapSpec LocalMapModel.

Section Spec.
Context {D Det Ctx View Mt U : Type}.
Notation pol_t := (policy D Det Ctx View Mt U).
Notation fmap := (fmap D).
Notation fstate := (fstate D).
Notation maps := (list (pol_t * fstate)).

(** every map takes one step, in order, the identifiers and the output file
    going from one to the next *)
Inductive each (step : pol_t -> fstate -> shared -> fstate -> shared -> Prop) : maps -> shared -> maps -> shared -> Prop :=
| each_nil : forall g, each step [] g [] g
| each_cons : forall p s g s1 g1 ms ms' g',
    step p s g s1 g1 -> each step ms g1 ms' g' -> each step ((p, s) :: ms) g ((p, s1) :: ms') g'.

(** the outliers of one kind *)
Definition of_kind (k : nat) (outl : list (nat * (N * nat))) : list (N * nat) :=
  flat_map (fun o => if Nat.eqb (fst o) k then [snd o] else []) outl.

(** a frame with a valid pose, for one map: the outliers of its kind are
    unmatched, the map is updated with the detections of its kind, and those it
    did not use are staged *)
Definition frame_step (fuel : nat) (c : Ctx) (dets : nat -> list Det) (outl : list (nat * (N * nat)))
           (p : pol_t) (s : fstate) (g : shared) (s' : fstate) (g' : shared) : Prop :=
  exists s1 s2 g2 used,
    mark_outliers (of_kind (p_kind p) outl) s = Ret s1 /\
    update_map p fuel c true (dets (p_kind p)) s1 g = Ret (MDone s2 g2 used) /\
    add_features_to_staged_map p c true (dets (p_kind p)) used s2 g2 = Some (s', g').

(** ** Features that change kind *)

Definition stays (c : Ctx) (p : pol_t) (m : fmap) : fmap :=
  filter (fun kf => match p_upgrade p c (snd kf) with Some _ => false | None => true end) m.

(** what leaves a map: the upgraded form and the match indexes of each feature *)
Definition leaves (c : Ctx) (p : pol_t) (s : fstate) : list (U * list nat) :=
  flat_map (fun kf => match p_upgrade p c (snd kf) with Some u => [(u, f_matches (snd kf))] | None => [] end)
    (s_local s ++ s_staged s).

Definition all_leaving (c : Ctx) (ms : maps) : list (U * list nat) :=
  flat_map (fun ps => leaves c (fst ps) (snd ps)) ms.

(** a kind either gives features or takes some, never both: 3D points and planes
    never change kind, 2D points and planes take nothing *)
Definition one_way (ms : maps) : Prop :=
  Forall (fun ps => (forall c f, p_upgrade (fst ps) c f = None) \/ (forall u, p_mk_upgraded (fst ps) u = None)) ms.

Definition takes (p : pol_t) (um : U * list nat) : bool :=
  match p_mk_upgraded p (fst um) with Some _ => true | None => false end.

(** the new feature [kf] comes from the leaving one [um] *)
Definition became (p : pol_t) (um : U * list nat) (kf : N * feat D) : Prop :=
  exists d, p_mk_upgraded p (fst um) = Some (COk d) /\ snd kf = mkFeat (fst kf) 0%N 1%Z (snd um) d.

(** one map, before and after the exchange of [us] *)
Definition exchanged (c : Ctx) (us : list (U * list nat)) (ps ps' : pol_t * fstate) : Prop :=
  fst ps' = fst ps /\ s_active (snd ps') = s_active (snd ps) /\ s_flags (snd ps') = s_flags (snd ps) /\
  s_staged (snd ps') = stays c (fst ps) (s_staged (snd ps)) /\
  exists news, s_local (snd ps') = stays c (fst ps) (s_local (snd ps)) ++ news /\
    Forall2 (became (fst ps)) (filter (takes (fst ps)) us) news.

(** some map takes a leaving feature but its constructor throws *)
Definition refused (c : Ctx) (ms : maps) : Prop :=
  exists p s um b, In (p, s) ms /\ In um (all_leaving c ms) /\ p_mk_upgraded p (fst um) = Some (CThrow b).

End Spec.
