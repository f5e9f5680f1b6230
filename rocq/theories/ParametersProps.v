(** Properties of the camera parameters (C13, C53), for every history of calls
    of one process. *)
From Verif Require Import ParametersModel.
Local Open Scope Z_scope.

(** ** Specification *)
Section Spec.
Context {T : Type}.
(** where the current values come from *)
Inductive source := Nothing | Defaults | FromFile (f : file T).

(** the last call that loaded values *)
Definition source_step (src : source) (c : pcall T) : source :=
  match c with
  | PParse (Some f) => FromFile f
  | PParse None => Defaults
  | PDefault => Defaults
  | _ => src
  end.
Definition source_of (cs : list (pcall T)) : source := fold_left source_step cs Nothing.

(** positive image sizes *)
Definition positive_sizes (c : camera) : Prop := 0 < c_w c < 2 ^ 31 /\ 0 < c_h c < 2 ^ 31.
(** a center coordinate is given and is not negative *)
Definition not_negative (x : real) : Prop := exists q, x = Some q /\ (0 <= q)%Q.
Definition sane (c : camera) : Prop := positive_sizes c /\ not_negative (c_cx c) /\ not_negative (c_cy c).
End Spec.
Arguments source T : clear implicits.

(** ** Proofs *)
Section Proofs.
Context {T : Type}.
Variables t0 identity : T.
Notation st_init := (st_init t0).
Notation prun := (prun identity).
Notation pexec := (pexec identity).
Implicit Types (s : store T) (c : pcall T).

Definition matches (src : source T) (s : store T) : Prop :=
  match src with
  | Nothing => st_1 s = camera0 /\ st_2 s = camera0 /\ st_t s = t0 /\ st_valid s = false
  | Defaults => st_1 s = default_camera /\ st_2 s = default_camera /\ st_t s = identity
  | FromFile f => st_1 s = stored (fi_1 f) /\ st_2 s = stored (fi_2 f) /\ st_t s = fi_t f /\
                  st_valid s = camera_ok (stored (fi_1 f)) && camera_ok (stored (fi_2 f))
  end.

Lemma prun_snoc cs c s s' :
  prun (cs ++ [c]) s = Some s' -> exists s1, prun cs s = Some s1 /\ pexec c s1 = Some s'.
Proof.
  revert s. induction cs as [|x cs IH]; cbn; intros s H.
  - exists s. split; auto. destruct (pexec c s); auto.
  - destruct (pexec x s); [|discriminate]. now apply IH.
Qed.

Lemma intrinsics_1_keeps s : let s' := fst (intrinsics_1 s) in
  st_1 s' = st_1 s /\ st_2 s' = st_2 s /\ st_t s' = st_t s /\ st_valid s' = st_valid s /\ st_k2 s' = st_k2 s.
Proof. unfold intrinsics_1. destruct (st_k1 s); cbn; auto 6. Qed.
Lemma intrinsics_2_keeps s : let s' := fst (intrinsics_2 s) in
  st_1 s' = st_1 s /\ st_2 s' = st_2 s /\ st_t s' = st_t s /\ st_valid s' = st_valid s /\ st_k1 s' = st_k1 s.
Proof. unfold intrinsics_2. destruct (st_k2 s); cbn; auto 6. Qed.

Lemma matches_same src s s' :
  st_1 s' = st_1 s -> st_2 s' = st_2 s -> st_t s' = st_t s -> st_valid s' = st_valid s ->
  matches src s -> matches src s'.
Proof. destruct src; cbn; intros A B C D; rewrite ?A, ?B, ?C, ?D; auto. Qed.

Lemma construct_spec s : construct identity s = if st_valid s then Some s else None.
Proof. unfold construct. destruct (st_valid s) eqn:E; auto. unfold load_default. cbn. now rewrite E. Qed.

Lemma run_matches cs s : prun cs st_init = Some s -> matches (source_of cs) s.
Proof.
  revert s. induction cs as [|c cs IH] using rev_ind; intros s H.
  - injection H as <-. cbn. auto.
  - destruct (prun_snoc _ _ _ _ H) as (s1 & R & E). specialize (IH _ R).
    unfold source_of. rewrite fold_left_app. cbn [fold_left]. fold (source_of cs).
    destruct c as [[f|]| | | |]; cbn [pexec source_step ParametersModel.pexec] in *.
    + injection E as <-. cbn. auto.
    + injection E as <-. cbn. auto.
    + injection E as <-. cbn. auto.
    + injection E as <-. destruct (intrinsics_1_keeps s1) as (A & B & C & D & _). eapply matches_same; eauto.
    + injection E as <-. destruct (intrinsics_2_keeps s1) as (A & B & C & D & _). eapply matches_same; eauto.
    + rewrite construct_spec in E. destruct (st_valid s1); [|discriminate]. injection E as <-. exact IH.
Qed.

(** the values at the first call of the intrinsics getters *)
Lemma run_k1 cs s : prun cs st_init = Some s -> forall k,
  st_k1 s = Some k <->
  exists pre post s0, cs = pre ++ PIntrinsics1 :: post /\ ~ In PIntrinsics1 pre /\
    prun pre st_init = Some s0 /\ k = matrix_of (st_1 s0).
Proof.
  revert s. induction cs as [|c cs IH] using rev_ind; intros s H k.
  - injection H as <-. cbn. split; [discriminate|]. intros ([|? ?] & ? & ? & X & _); discriminate.
  - destruct (prun_snoc _ _ _ _ H) as (s1 & R & E). specialize (IH _ R).
    assert (Keep : st_k1 s = st_k1 s1 -> c <> PIntrinsics1 \/ (exists k0, st_k1 s1 = Some k0) ->
      st_k1 s = Some k <-> exists pre post s0, cs ++ [c] = pre ++ PIntrinsics1 :: post /\ ~ In PIntrinsics1 pre /\
        prun pre st_init = Some s0 /\ k = matrix_of (st_1 s0)).
    { intros K NC. rewrite K. split.
      - intros X. apply IH in X. destruct X as (pre & post & s0 & -> & N & P & Q).
        exists pre, (post ++ [c]), s0. rewrite <- app_assoc. auto.
      - intros (pre & post & s0 & X & N & P & Q).
        destruct post as [|y post] using rev_ind; try clear IHpost.
        + apply app_inj_tail in X. destruct X as [-> ->]. destruct NC as [NC|(k0 & K0)]; [congruence|].
          exfalso. apply IH in K0. destruct K0 as (p1 & p2 & _ & -> & _). apply N. apply in_or_app. right. now left.
        + change (pre ++ PIntrinsics1 :: post ++ [y]) with (pre ++ (PIntrinsics1 :: post) ++ [y]) in X.
          rewrite app_assoc in X. apply app_inj_tail in X. destruct X as [-> ->].
          apply IH. exists pre, post, s0. auto. }
    destruct c as [[f|]| | | |]; cbn [pexec ParametersModel.pexec] in E.
    + injection E as <-. apply Keep; [reflexivity|left; discriminate].
    + injection E as <-. apply Keep; [reflexivity|left; discriminate].
    + injection E as <-. apply Keep; [reflexivity|left; discriminate].
    + injection E as <-. destruct (st_k1 s1) as [k1|] eqn:K1.
      * apply Keep; [unfold intrinsics_1; now rewrite K1|right; eauto].
      * unfold intrinsics_1. rewrite K1. cbn. split.
        -- intros [= <-]. exists cs, [], s1. repeat split; auto. intros I. apply in_split in I.
           (* the first occurrence *)
           assert (F : exists pre post, cs = pre ++ PIntrinsics1 :: post /\ ~ In PIntrinsics1 pre).
           { clear - I. destruct I as (l1 & l2 & ->). induction l1 as [|y l1 IHl].
             - exists [], l2. split; auto.
             - assert (Dy : {y = PIntrinsics1} + {y <> PIntrinsics1}) by (destruct y; auto; right; discriminate).
               destruct Dy as [->|Ny]; [exists [], (l1 ++ PIntrinsics1 :: l2); split; auto|].
               destruct IHl as (p & q & X & Y). exists (y :: p), q. cbn. rewrite X. split; [reflexivity|].
               intros [Z|Z]; [congruence|auto]. }
           destruct F as (p & q & -> & Np).
           assert (exists s0, prun p st_init = Some s0) as (s0 & P0).
           { clear - R. revert R. generalize st_init. induction p as [|z p IHp]; cbn; intros s' R; [eauto|].
             destruct (pexec z s'); [|discriminate]. eauto. }
           enough (@None (real * real * real * real) = Some (matrix_of (st_1 s0))) by discriminate. apply IH. eauto 10.
        -- intros (pre & post & s0 & X & N & P & ->). destruct post as [|y post] using rev_ind; try clear IHpost.
           ++ apply app_inj_tail in X. destruct X as [-> _]. rewrite R in P. now injection P as ->.
           ++ change (pre ++ PIntrinsics1 :: post ++ [y]) with (pre ++ (PIntrinsics1 :: post) ++ [y]) in X.
              rewrite app_assoc in X. apply app_inj_tail in X. destruct X as [-> _].
              enough (@None (real * real * real * real) = Some (matrix_of (st_1 s0))) by discriminate. apply IH. eauto 10.
    + injection E as <-. apply Keep; [apply intrinsics_2_keeps|left; discriminate].
    + rewrite construct_spec in E. destruct (st_valid s1); [|discriminate]. injection E as <-.
      apply Keep; [reflexivity|left; discriminate].
Qed.

Lemma run_k2 cs s : prun cs st_init = Some s -> forall k,
  st_k2 s = Some k <->
  exists pre post s0, cs = pre ++ PIntrinsics2 :: post /\ ~ In PIntrinsics2 pre /\
    prun pre st_init = Some s0 /\ k = matrix_of (st_2 s0).
Proof.
  revert s. induction cs as [|c cs IH] using rev_ind; intros s H k.
  - injection H as <-. cbn. split; [discriminate|]. intros ([|? ?] & ? & ? & X & _); discriminate.
  - destruct (prun_snoc _ _ _ _ H) as (s1 & R & E). specialize (IH _ R).
    assert (Keep : st_k2 s = st_k2 s1 -> c <> PIntrinsics2 \/ (exists k0, st_k2 s1 = Some k0) ->
      st_k2 s = Some k <-> exists pre post s0, cs ++ [c] = pre ++ PIntrinsics2 :: post /\ ~ In PIntrinsics2 pre /\
        prun pre st_init = Some s0 /\ k = matrix_of (st_2 s0)).
    { intros K NC. rewrite K. split.
      - intros X. apply IH in X. destruct X as (pre & post & s0 & -> & N & P & Q).
        exists pre, (post ++ [c]), s0. rewrite <- app_assoc. auto.
      - intros (pre & post & s0 & X & N & P & Q).
        destruct post as [|y post] using rev_ind; try clear IHpost.
        + apply app_inj_tail in X. destruct X as [-> ->]. destruct NC as [NC|(k0 & K0)]; [congruence|].
          exfalso. apply IH in K0. destruct K0 as (p1 & p2 & _ & -> & _). apply N. apply in_or_app. right. now left.
        + change (pre ++ PIntrinsics2 :: post ++ [y]) with (pre ++ (PIntrinsics2 :: post) ++ [y]) in X.
          rewrite app_assoc in X. apply app_inj_tail in X. destruct X as [-> ->].
          apply IH. exists pre, post, s0. auto. }
    destruct c as [[f|]| | | |]; cbn [pexec ParametersModel.pexec] in E.
    + injection E as <-. apply Keep; [reflexivity|left; discriminate].
    + injection E as <-. apply Keep; [reflexivity|left; discriminate].
    + injection E as <-. apply Keep; [reflexivity|left; discriminate].
    + injection E as <-. apply Keep; [apply intrinsics_1_keeps|left; discriminate].
    + injection E as <-. destruct (st_k2 s1) as [k1|] eqn:K1.
      * apply Keep; [unfold intrinsics_2; now rewrite K1|right; eauto].
      * unfold intrinsics_2. rewrite K1. cbn. split.
        -- intros [= <-]. exists cs, [], s1. repeat split; auto. intros I. apply in_split in I.
           (* the first occurrence *)
           assert (F : exists pre post, cs = pre ++ PIntrinsics2 :: post /\ ~ In PIntrinsics2 pre).
           { clear - I. destruct I as (l1 & l2 & ->). induction l1 as [|y l1 IHl].
             - exists [], l2. split; auto.
             - assert (Dy : {y = PIntrinsics2} + {y <> PIntrinsics2}) by (destruct y; auto; right; discriminate).
               destruct Dy as [->|Ny]; [exists [], (l1 ++ PIntrinsics2 :: l2); split; auto|].
               destruct IHl as (p & q & X & Y). exists (y :: p), q. cbn. rewrite X. split; [reflexivity|].
               intros [Z|Z]; [congruence|auto]. }
           destruct F as (p & q & -> & Np).
           assert (exists s0, prun p st_init = Some s0) as (s0 & P0).
           { clear - R. revert R. generalize st_init. induction p as [|z p IHp]; cbn; intros s' R; [eauto|].
             destruct (pexec z s'); [|discriminate]. eauto. }
           enough (@None (real * real * real * real) = Some (matrix_of (st_2 s0))) by discriminate. apply IH. eauto 10.
        -- intros (pre & post & s0 & X & N & P & ->). destruct post as [|y post] using rev_ind; try clear IHpost.
           ++ apply app_inj_tail in X. destruct X as [-> _]. rewrite R in P. now injection P as ->.
           ++ change (pre ++ PIntrinsics2 :: post ++ [y]) with (pre ++ (PIntrinsics2 :: post) ++ [y]) in X.
              rewrite app_assoc in X. apply app_inj_tail in X. destruct X as [-> _].
              enough (@None (real * real * real * real) = Some (matrix_of (st_2 s0))) by discriminate. apply IH. eauto 10.
    + rewrite construct_spec in E. destruct (st_valid s1); [|discriminate]. injection E as <-.
      apply Keep; [reflexivity|left; discriminate].
Qed.

Lemma camera_ok_sane (c : camera) : positive_sizes c ->
  (camera_ok (stored c) = true <-> lt0 (c_cx c) = false /\ lt0 (c_cy c) = false).
Proof.
  intros [A B]. unfold camera_ok, stored. cbn.
  unfold to_uint. rewrite !Z.mod_small by lia.
  rewrite !andb_true_iff, !negb_true_iff, !Z.leb_gt. intuition lia.
Qed.
Lemma stored_positive (c : camera) : positive_sizes c -> stored c = c.
Proof. intros [A B]. destruct c. unfold stored, to_uint. cbn in *. now rewrite !Z.mod_small by lia. Qed.
Lemma lt0_not_negative x : not_negative x -> lt0 x = false.
Proof. intros (q & -> & H). cbn. apply negb_false_iff. now apply Qle_bool_iff. Qed.
Lemma sane_ok (c : camera) : sane c -> camera_ok (stored c) = true.
Proof.
  intros (P & X & Y). apply camera_ok_sane; auto using lt0_not_negative.
Qed.

End Proofs.

(** ** C13 *)

(** After any history, the size, focal, center and relative pose getters
    report the values of the last file parsed, or the default values when the
    last load could not open a file or loaded the default values. *)
Theorem C13_getters_report_last_load :
  forall (T : Type) (t0 identity : T) cs s, prun identity cs (st_init t0) = Some s ->
  match source_of cs with
  | Nothing => st_valid s = false
  | Defaults => st_1 s = default_camera /\ st_2 s = default_camera /\ st_t s = identity
  | FromFile f =>
    (positive_sizes (fi_1 f) -> st_1 s = fi_1 f) /\ (positive_sizes (fi_2 f) -> st_2 s = fi_2 f) /\ st_t s = fi_t f
  end.
Proof.
  intros T t0 identity cs s R. pose proof (run_matches _ _ _ _ R) as M. destruct (source_of cs) as [| |f]; cbn in M.
  - tauto.
  - tauto.
  - destruct M as (A & B & C & _). repeat split; auto; intros P; [rewrite A|rewrite B]; now apply stored_positive.
Qed.
Print Assumptions C13_getters_report_last_load.

(** A file with positive sizes and non negative centers is accepted, whatever
    happened before, and makes the parameters valid. *)
Theorem C13_sane_file_accepted :
  forall (T : Type) (identity : T) (f : file T) s, sane (fi_1 f) -> sane (fi_2 f) ->
  exists s', parse_file identity (Some f) s = (s', true) /\ st_valid s' = true /\ st_1 s' = fi_1 f /\ st_2 s' = fi_2 f.
Proof.
  intros T identity f s S1 S2. unfold parse_file, check. cbn [st_1 st_2 st_valid].
  rewrite (sane_ok _ S1), (sane_ok _ S2), (stored_positive _ (proj1 S1)), (stored_positive _ (proj1 S2)).
  eexists. split; [reflexivity|]. cbn [st_1 st_2 st_valid]. auto.
Qed.
Print Assumptions C13_sane_file_accepted.

(** A zero size or a negative center is rejected. *)
Theorem C13_bad_file_rejected :
  forall (T : Type) (identity : T) (f : file T) s c, c = fi_1 f \/ c = fi_2 f ->
  c_w c = 0 \/ c_h c = 0 \/ (exists q, (q < 0)%Q /\ (c_cx c = Some q \/ c_cy c = Some q)) ->
  snd (parse_file identity (Some f) s) = false.
Proof.
  intros T identity f s c Hc Bad.
  assert (E : camera_ok (stored c) = false).
  { unfold camera_ok, stored. cbn. destruct Bad as [B|[B|(q & Q & B)]].
    - rewrite B. reflexivity.
    - rewrite B. cbn. now rewrite andb_false_r.
    - assert (L : lt0 (Some q) = true).
      { cbn. apply negb_true_iff. destruct (Qle_bool 0 q) eqn:X; auto. apply Qle_bool_iff in X.
        exfalso. exact (Qlt_not_le _ _ Q X). }
      destruct B as [B|B]; rewrite B, L; cbn; now rewrite ?andb_false_r. }
  cbn. destruct Hc as [-> | ->]; rewrite E; auto using andb_false_r.
Qed.
Print Assumptions C13_bad_file_rejected.

(** ... but a negative size is accepted, and read back as a huge size, and a
    missing center is accepted too. *)
Theorem C13_negative_size_rejected_refuted :
  exists f : file unit, c_w (fi_1 f) < 0 /\ c_cx (fi_1 f) = None /\
  forall s, snd (parse_file tt (Some f) s) = true /\ c_w (st_1 (fst (parse_file tt (Some f) s))) = 2 ^ 32 - 640.
Proof.
  exists (mkFile (mkCamera (-640) 480 None None None None) default_camera tt). repeat split; try lia.
Qed.
Print Assumptions C13_negative_size_rejected_refuted.

(** The intrinsics getter answers the values current at its first call. *)
Theorem C13_intrinsics_are_those_of_the_first_call :
  forall (T : Type) (t0 identity : T) cs s, prun identity cs (st_init t0) = Some s ->
  forall pre post s0, cs = pre ++ PIntrinsics1 :: post -> ~ In PIntrinsics1 pre -> prun identity pre (st_init t0) = Some s0 ->
  snd (intrinsics_1 s) = matrix_of (st_1 s0).
Proof.
  intros T t0 identity cs s R pre post s0 E N P.
  assert (K : st_k1 s = Some (matrix_of (st_1 s0))) by (apply (run_k1 t0 identity cs s R); eauto 8).
  unfold intrinsics_1. now rewrite K.
Qed.
Print Assumptions C13_intrinsics_are_those_of_the_first_call.

(** So they are those of the last file as long as they were not read before. *)
Theorem C13_intrinsics_fresh :
  forall (T : Type) (t0 identity : T) cs s, prun identity cs (st_init t0) = Some s ->
  ~ In PIntrinsics1 cs -> snd (intrinsics_1 s) = matrix_of (st_1 s).
Proof.
  intros T t0 identity cs s R N. unfold intrinsics_1. destruct (st_k1 s) as [k|] eqn:K; [|reflexivity].
  exfalso. apply (run_k1 t0 identity cs s R) in K. destruct K as (pre & post & _ & -> & _).
  apply N. apply in_or_app. right. now left.
Qed.
Print Assumptions C13_intrinsics_fresh.

(** The same holds of the second camera.
    The intrinsics getter answers the values current at its first call. *)
Theorem C13_intrinsics_are_those_of_the_first_call_2 :
  forall (T : Type) (t0 identity : T) cs s, prun identity cs (st_init t0) = Some s ->
  forall pre post s0, cs = pre ++ PIntrinsics2 :: post -> ~ In PIntrinsics2 pre -> prun identity pre (st_init t0) = Some s0 ->
  snd (intrinsics_2 s) = matrix_of (st_2 s0).
Proof.
  intros T t0 identity cs s R pre post s0 E N P.
  assert (K : st_k2 s = Some (matrix_of (st_2 s0))) by (apply (run_k2 t0 identity cs s R); eauto 8).
  unfold intrinsics_2. now rewrite K.
Qed.
Print Assumptions C13_intrinsics_are_those_of_the_first_call_2.

(** So they are those of the last file as long as they were not read before. *)
Theorem C13_intrinsics_fresh_2 :
  forall (T : Type) (t0 identity : T) cs s, prun identity cs (st_init t0) = Some s ->
  ~ In PIntrinsics2 cs -> snd (intrinsics_2 s) = matrix_of (st_2 s).
Proof.
  intros T t0 identity cs s R N. unfold intrinsics_2. destruct (st_k2 s) as [k|] eqn:K; [|reflexivity].
  exfalso. apply (run_k2 t0 identity cs s R) in K. destruct K as (pre & post & _ & -> & _).
  apply N. apply in_or_app. right. now left.
Qed.
Print Assumptions C13_intrinsics_fresh_2.

Definition exp_file (fx : Q) : file unit :=
  mkFile (mkCamera 640 480 (Some fx) (Some fx) (Some 300%Q) (Some 200%Q)) default_camera tt.

(** "The getters report the values of the last file" is false of the
    intrinsics. *)
Theorem C13_intrinsics_follow_parse_refuted :
  exists cs (f : file unit) s, sane (fi_1 f) /\ sane (fi_2 f) /\ prun tt cs (st_init tt) = Some s /\ source_of cs = FromFile f /\
  st_valid s = true /\ c_fx (st_1 s) = Some 600%Q /\
  fst (fst (fst (snd (intrinsics_1 s)))) = Some 500%Q.
Proof.
  exists [PParse (Some (exp_file 500)); PIntrinsics1; PParse (Some (exp_file 600))], (exp_file 600). eexists.
  assert (S : forall q, sane (fi_1 (exp_file q)) /\ sane (fi_2 (exp_file q))).
  { intros q. split; (split; [split; cbn; lia|]; split; eexists; (split; [reflexivity|]); discriminate). }
  split; [apply S|]. split; [apply S|]. split; [reflexivity|]. repeat split.
Qed.
Print Assumptions C13_intrinsics_follow_parse_refuted.

(** ** C53 — construction of the SLAM *)

(** The constructor returns exactly when the last parse found valid values, and
    then changes no parameter; in particular a program that never parsed a file
    exits, as does one that only loaded the default values. *)
Theorem C53_construct_iff_valid :
  forall (T : Type) (identity : T) (s : store T),
  (st_valid s = true -> construct identity s = Some s) /\ (st_valid s = false -> construct identity s = None).
Proof. intros T identity s. rewrite construct_spec. split; now intros ->. Qed.
Print Assumptions C53_construct_iff_valid.

Theorem C53_after_unreadable_file :
  forall (T : Type) (identity : T) (s : store T),
  let '(s', r) := parse_file identity None s in
  r = false /\ construct identity s' = Some s' /\ st_1 s' = default_camera /\ st_2 s' = default_camera.
Proof. intros T identity s. cbn. auto. Qed.
Print Assumptions C53_after_unreadable_file.

(** "Without valid parameters the default ones are used" *)
Theorem C53_default_fallback_refuted :
  forall (T : Type) (t0 identity : T) cs, (forall f, ~ In (PParse f) cs) ->
  prun identity (cs ++ [PConstruct]) (st_init t0) = None.
Proof.
  intros T t0 identity cs N.
  destruct (prun identity (cs ++ [PConstruct]) (st_init t0)) as [s|] eqn:E; [|reflexivity]. exfalso.
  apply prun_snoc in E. destruct E as (s1 & R & E). change (construct identity s1 = Some s) in E. rewrite construct_spec in E.
  enough (V : st_valid s1 = false) by (rewrite V in E; discriminate). clear E s.
  revert s1 R N. induction cs as [|c cs IH] using rev_ind; intros s1 R N.
  - now injection R as <-.
  - apply prun_snoc in R. destruct R as (s0 & R & E).
    assert (V : st_valid s0 = false) by (apply IH; [exact R|intros f I; apply (N f); apply in_or_app; auto]).
    destruct c as [f| | | |]; cbn [pexec] in E.
    + exfalso. apply (N f). apply in_or_app. right. now left.
    + injection E as <-. exact V.
    + injection E as <-. now rewrite (proj1 (proj2 (proj2 (proj2 (intrinsics_1_keeps s0))))).
    + injection E as <-. now rewrite (proj1 (proj2 (proj2 (proj2 (intrinsics_2_keeps s0))))).
    + rewrite construct_spec, V in E. discriminate.
Qed.
Print Assumptions C53_default_fallback_refuted.

(** Example: a session that parses a bad file, then a good one, then constructs. *)
Example C13_example :
  exists s, prun tt [PParse None; PParse (Some (mkFile camera0 camera0 tt)); PParse (Some (exp_file 500)); PConstruct; PIntrinsics1] (st_init tt) = Some s /\
  st_1 s = fi_1 (exp_file 500) /\ st_valid s = true.
Proof. eexists. split; [reflexivity|]. split; reflexivity. Qed.
Example C53_example : prun tt [PDefault (T := unit); PConstruct] (st_init tt) = None /\ prun tt [PParse (T := unit) None; PConstruct] (st_init tt) <> None.
Proof. split; [reflexivity|discriminate]. Qed.
