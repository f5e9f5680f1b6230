(** The camera used by the conversions in every history of loads and uses (C111). *)
From Verif Require Import ParametersModel ParametersProps CameraUseModel CameraUseSpec.
From Coq Require Import ZifyBool.
Local Open Scope Z_scope.

Section Props.
Context {T : Type}.
Variables (t0 identity : T).
Let run := @run T identity.

Lemma site_eqb_iff a b : site_eqb a b = true <-> a = b.
Proof. destruct a, b; cbn; split; congruence. Qed.
Definition is_matrix (s : site) : bool := match s with To_camera | To_screen => true | _ => false end.
(** What is kept after a history: nothing before the call that settles, then the value wanted
    for the camera loaded there *)
Definition kept_ok (h : list (call T)) (s : site) (v : option value) : Prop :=
  match v with
  | None => forall c, In c h -> ~ settles s c
  | Some v => exists pre c post, h = pre ++ c :: post /\ settles s c /\ (forall c', In c' pre -> ~ settles s c') /\ v = wanted s (camera_loaded pre)
  end.
Record inv (h : list (call T)) (m : memory T) : Prop := {
  i_camera : @st_1 T (me_store m) = camera_loaded h;
  i_matrix : kept_ok h To_camera (option_map Matrix (st_k1 (me_store m)));
  i_kept : forall s v, me_kept m s = Some v -> if is_matrix s then exists k, st_k1 (me_store m) = Some k /\ v = Matrix k else kept_ok h s (Some v);
  i_none : forall s, is_matrix s = false -> me_kept m s = None -> kept_ok h s None }.
Lemma kept_more h c s v : kept_ok h s (Some v) -> kept_ok (h ++ [c]) s (Some v).
Proof. intros (pre & c' & post & -> & A & B & C). exists pre, c', (post ++ [c]). rewrite <- app_assoc. auto. Qed.
Lemma kept_none_more h c s : kept_ok h s None -> ~ settles s c -> kept_ok (h ++ [c]) s None.
Proof. intros A B c' I. apply in_app_or in I as [I|[<-|[]]]; [now apply A|exact B]. Qed.
Lemma kept_first h c s v : kept_ok h s None -> settles s c -> v = wanted s (camera_loaded h) -> kept_ok (h ++ [c]) s (Some v).
Proof. intros A B ->. exists h, c, []. repeat split; auto. Qed.
Lemma loaded_use (h : list (call T)) s : camera_loaded (h ++ [Use s]) = camera_loaded h.
Proof. unfold camera_loaded, params_of. rewrite flat_map_app. cbn. now rewrite app_nil_r. Qed.
Lemma loaded_params (h : list (call T)) c : camera_loaded (h ++ [Params c]) =
  match source_step (source_of (params_of h)) c with
  | Nothing => mkCamera 0 0 (Some 0%Q) (Some 0%Q) (Some 0%Q) (Some 0%Q)
  | Defaults => mkCamera 640 480 (Some 550%Q) (Some 550%Q) (Some 320%Q) (Some 240%Q)
  | FromFile f => let c := fi_1 f in mkCamera (c_w c mod 2 ^ 32) (c_h c mod 2 ^ 32) (c_fx c) (c_fy c) (c_cx c) (c_cy c)
  end.
Proof. unfold camera_loaded, params_of. rewrite flat_map_app. cbn. unfold source_of. now rewrite fold_left_app. Qed.
Lemma settles_matrix s (c : call T) : is_matrix s = true -> settles s c <-> settles To_camera c.
Proof. destruct s; try discriminate; reflexivity. Qed.
Lemma wanted_matrix s c : is_matrix s = true -> wanted s c = wanted To_camera c.
Proof. destruct s; try discriminate; reflexivity. Qed.
Lemma kept_matrix h s v : is_matrix s = true -> kept_ok h s v <-> kept_ok h To_camera v.
Proof. destruct s; try discriminate; reflexivity. Qed.
Lemma settles_other s s' : is_matrix s = false -> s <> s' -> ~ settles (T := T) s (Use s').
Proof. destruct s; try discriminate; cbn; congruence. Qed.
Lemma settles_self s : settles (T := T) s (Use s).
Proof. destruct s; cbn; auto. Qed.
Lemma step_use h m s : inv h m -> let '(m', v) := use s m in inv (h ++ [Use s]) m' /\ kept_ok (h ++ [Use s]) s (Some v).
Proof.
  intros [C M K N]. unfold use. destruct (me_kept m s) as [v|] eqn:E.
  - pose proof (K s v E) as Kv. assert (V : kept_ok h s (Some v)).
    { destruct (is_matrix s) eqn:X; [|exact Kv]. destruct Kv as (k & Ek & ->). apply (kept_matrix h s _ X). rewrite Ek in M. exact M. }
    split; [|now apply kept_more]. split.
    + now rewrite loaded_use.
    + destruct (st_k1 (me_store m)) as [k|] eqn:Ek; [now apply kept_more|]. apply kept_none_more; [exact M|]. destruct (is_matrix s) eqn:X; [destruct Kv as (k & ? & _); discriminate|]. destruct s; cbn in *; try discriminate; intuition discriminate.
    + intros s' v' E'. pose proof (K s' v' E') as K'. destruct (is_matrix s'); [exact K'|now apply kept_more].
    + intros s' X' E'. apply kept_none_more; [now apply N|]. apply settles_other; [exact X'|]. intros ->. congruence.
  - destruct (is_matrix s) eqn:X.
    + assert (R : read s (me_store m) = (fst (intrinsics_1 (me_store m)), Matrix (snd (intrinsics_1 (me_store m))))) by (destruct s; try discriminate; cbn; now destruct (intrinsics_1 (me_store m))).
      rewrite R. set (k := snd (intrinsics_1 (me_store m))).
      assert (S1 : st_1 (fst (intrinsics_1 (me_store m))) = st_1 (me_store m)) by (unfold intrinsics_1; now destruct (st_k1 (me_store m))).
      assert (S2 : st_k1 (fst (intrinsics_1 (me_store m))) = Some k) by (unfold k, intrinsics_1; destruct (st_k1 (me_store m)) eqn:Ek; cbn; auto).
      assert (V : kept_ok (h ++ [Use s]) To_camera (Some (Matrix k))).
      { unfold k, intrinsics_1. destruct (st_k1 (me_store m)) as [k'|] eqn:Ek; cbn [snd]; [now apply kept_more|]. apply kept_first; [exact M|destruct s; try discriminate; cbn; auto|]. rewrite C. reflexivity. }
      split; [|now apply (kept_matrix _ s _ X)]. split; cbn [me_store me_kept].
      * now rewrite loaded_use, S1.
      * rewrite S2. exact V.
      * intros s' v' E'. unfold keep in E'. destruct (site_eqb s s') eqn:Q.
        -- apply site_eqb_iff in Q as <-. injection E' as <-. rewrite X. eauto.
        -- pose proof (K s' v' E') as K'. destruct (is_matrix s'); [|now apply kept_more]. destruct K' as (k' & Ek & ->). exists k'. split; [|reflexivity]. rewrite S2. f_equal. unfold k, intrinsics_1. now rewrite Ek.
      * intros s' X' E'. unfold keep in E'. destruct (site_eqb s s') eqn:Q; [discriminate|]. apply kept_none_more; [now apply N|]. apply settles_other; [exact X'|]. intros ->. congruence.
    + assert (R : read s (me_store m) = (me_store m, wanted s (camera_loaded h))) by (destruct s; try discriminate; cbn; rewrite C; reflexivity).
      rewrite R. pose proof (kept_first h (Use s) s _ (N s X E) (settles_self s) eq_refl) as V. split; [|exact V]. split; cbn [me_store me_kept].
      * now rewrite loaded_use.
      * destruct (st_k1 (me_store m)) as [k|] eqn:Ek; [now apply kept_more|]. apply kept_none_more; [exact M|]. destruct s; cbn in *; try discriminate; intuition discriminate.
      * intros s' v' E'. unfold keep in E'. destruct (site_eqb s s') eqn:Q.
        -- apply site_eqb_iff in Q as <-. injection E' as <-. rewrite X. exact V.
        -- pose proof (K s' v' E') as K'. destruct (is_matrix s'); [exact K'|now apply kept_more].
      * intros s' X' E'. unfold keep in E'. destruct (site_eqb s s') eqn:Q; [discriminate|]. apply kept_none_more; [now apply N|]. apply settles_other; [exact X'|]. intros ->. rewrite (proj2 (site_eqb_iff s s) eq_refl) in Q. discriminate.
Qed.
Lemma step_params h m c st : inv h m -> pexec identity c (me_store m) = Some st -> inv (h ++ [Params c]) (mkMemory st (me_kept m)).
Proof.
  intros [C M K N] E.
  assert (Camera : st_1 st = camera_loaded (h ++ [Params c])).
  { rewrite loaded_params. destruct c as [[f|]| | | |]; cbn [pexec source_step] in *; try (injection E as <-; cbn; reflexivity).
    - injection E as <-. unfold intrinsics_1. destruct (st_k1 (me_store m)); exact C.
    - injection E as <-. unfold intrinsics_2. destruct (st_k2 (me_store m)); exact C.
    - rewrite construct_spec in E. destruct (st_valid (me_store m)); [|discriminate]. injection E as <-. exact C. }
  assert (Other : forall s, is_matrix s = false -> ~ settles s (Params c)) by (intros s X; destruct s; try discriminate; cbn; discriminate).
  assert (Same : c <> PIntrinsics1 -> st_k1 st = st_k1 (me_store m)).
  { intros D. destruct c as [[f|]| | | |]; cbn [pexec] in E; try (injection E as <-; reflexivity); try congruence.
    - injection E as <-. unfold intrinsics_2. now destruct (st_k2 (me_store m)).
    - rewrite construct_spec in E. destruct (st_valid (me_store m)); [|discriminate]. now injection E as <-. }
  assert (D : c = PIntrinsics1 \/ c <> PIntrinsics1) by (destruct c; auto; right; discriminate).
  split; cbn [me_store me_kept].
  - exact Camera.
  - destruct D as [->|D].
    + cbn [pexec] in E. injection E as <-. unfold intrinsics_1. destruct (st_k1 (me_store m)) as [k|] eqn:Ek; cbn [fst].
      * rewrite Ek. now apply kept_more.
      * apply (kept_first h (Params PIntrinsics1) To_camera (Matrix (matrix_of (st_1 (me_store m)))) M); [cbn; auto|]. rewrite C. reflexivity.
    + rewrite (Same D). destruct (st_k1 (me_store m)) as [k|]; [now apply kept_more|]. apply kept_none_more; [exact M|]. cbn. intros [X|[X|X]]; try discriminate. injection X as X. auto.
  - intros s v Ev. pose proof (K s v Ev) as Kv. destruct (is_matrix s); [|now apply kept_more]. destruct Kv as (k & Ek & ->). exists k. split; [|reflexivity].
    destruct D as [->|D]; [|now rewrite Same]. cbn [pexec] in E. injection E as <-. unfold intrinsics_1. rewrite Ek. exact Ek.
  - intros s X Ev. apply kept_none_more; [now apply N|now apply Other].
Qed.
Lemma inv_init : inv [] (me_init t0).
Proof. split; cbn; try reflexivity; try easy. Qed.
Lemma run_all : forall cs h m m' vs, inv h m -> run cs m = Some (m', vs) ->
  inv (h ++ cs) m' /\ length vs = length (uses_of cs) /\
  forall pre s post, cs = pre ++ Use s :: post -> exists v, nth_error vs (length (uses_of pre)) = Some v /\ kept_ok (h ++ pre ++ [Use s]) s (Some v).
Proof.
  induction cs as [|c cs IH]; intros h m m' vs I R.
  - injection R as <- <-. rewrite app_nil_r. split; [exact I|]. split; [reflexivity|]. intros [|? ?] ? ? E; discriminate.
  - cbn in R. destruct c as [c|s].
    + destruct (pexec identity c (me_store m)) as [st|] eqn:E; [|discriminate]. destruct (IH (h ++ [Params c]) _ _ _ (step_params h m c st I E) R) as (A & B & D).
      rewrite <- app_assoc in A. split; [exact A|]. split; [exact B|]. intros [|c' pre] s post Q; [discriminate|]. injection Q as <- Q. destruct (D pre s post Q) as (v & V & W). exists v. split; [exact V|]. rewrite <- app_assoc in W. exact W.
    + pose proof (step_use h m s I) as S. destruct (use s m) as [m1 v]. destruct S as [I1 V]. change (CameraUseModel.run identity) with run in R. destruct (run cs m1) as [[m2 vs']|] eqn:E; [|discriminate]. injection R as <- <-.
      destruct (IH (h ++ [Use s]) _ _ _ I1 E) as (A & B & D). rewrite <- app_assoc in A. split; [exact A|]. split; [cbn; now f_equal|]. intros [|c' pre] s' post Q.
      * injection Q as <- <-. exists v. split; [reflexivity|exact V].
      * injection Q as <- Q. destruct (D pre s' post Q) as (w & W1 & W2). exists w. split; [exact W1|]. rewrite <- app_assoc in W2. exact W2.
Qed.
Lemma same_list {A} : forall l l' : list A, (forall n, nth_error l n = nth_error l' n) -> l = l'.
Proof.
  induction l as [|a l IH]; intros [|b l'] H; [reflexivity|discriminate (H 0%nat)|discriminate (H 0%nat)|].
  pose proof (H 0%nat) as [= ->]. f_equal. apply IH. intros n. exact (H (S n)).
Qed.
(** In every history of loads and uses, a use works with the camera that was loaded at the first
    call which needed it. *)
Theorem C111_first_use : forall pre s post m vs, run (pre ++ Use s :: post) (me_init t0) = Some (m, vs) ->
  exists before c after, pre ++ [Use s] = before ++ c :: after /\ settles s c /\ (forall c', In c' before -> ~ settles s c') /\
    nth_error vs (length (uses_of pre)) = Some (wanted s (camera_loaded before)).
Proof.
  intros pre s post m vs R. destruct (run_all _ [] _ _ _ inv_init R) as (_ & _ & D). destruct (D pre s post eq_refl) as (v & V & (b & c & a & E & S & F & ->)). exists b, c, a. auto.
Qed.
(** When the camera is the same at all the uses, each one works with this camera. *)
Theorem C111_one_camera : forall cs m vs camera, run cs (me_init t0) = Some (m, vs) ->
  (forall pre c post, cs = pre ++ c :: post -> (exists s, settles s c) -> camera_loaded pre = camera) -> vs = map (fun s => wanted s camera) (uses_of cs).
Proof.
  intros cs m vs camera R H. destruct (run_all _ [] _ _ _ inv_init R) as (_ & L & _).
  assert (G : forall pre post, cs = pre ++ post -> forall n s, nth_error (uses_of post) n = Some s -> nth_error vs (length (uses_of pre) + n) = Some (wanted s camera)).
  { intros pre post. revert pre. induction post as [|c post IH]; intros pre E n s Q; [destruct n; discriminate|].
    assert (E' : cs = (pre ++ [c]) ++ post) by (rewrite <- app_assoc; exact E). destruct c as [c|s'].
    - specialize (IH _ E' n s Q). unfold uses_of in IH at 1. rewrite flat_map_app in IH. cbn in IH. rewrite app_nil_r in IH. exact IH.
    - destruct n as [|n].
      + injection Q as <-. rewrite Nat.add_0_r. subst cs. destruct (C111_first_use pre s' post m vs R) as (b & c & a & Eb & S & _ & ->). f_equal. f_equal.
        apply (H b c (a ++ post)); [|eauto]. change (pre ++ Use s' :: post) with (pre ++ [Use s'] ++ post). rewrite app_assoc, Eb, <- app_assoc. reflexivity.
      + specialize (IH _ E' n s Q). unfold uses_of in IH at 1. rewrite flat_map_app, app_length in IH. cbn in IH. replace (length (uses_of pre) + S n)%nat with (length (flat_map (fun c : call T => match c with Params _ => [] | Use s => [s] end) pre) + 1 + n)%nat by (unfold uses_of; lia). exact IH. }
  apply same_list. intros n. destruct (nth_error (uses_of cs) n) as [s|] eqn:E.
  - rewrite nth_error_map, E. exact (G [] cs eq_refl n s E).
  - rewrite nth_error_map, E. cbn. apply nth_error_None. rewrite L. now apply nth_error_None.
Qed.
Lemma use_at : forall (cs : list (call T)) n s, nth_error (uses_of cs) n = Some s -> exists pre post, cs = pre ++ Use s :: post /\ length (uses_of pre) = n.
Proof.
  induction cs as [|[c|s'] cs IH]; intros n s E; [destruct n; discriminate| |].
  - destruct (IH n s E) as (pre & post & -> & L). exists (Params c :: pre), post. auto.
  - destruct n as [|n]; [injection E as ->; exists [], cs; auto|]. destruct (IH n s E) as (pre & post & -> & L). exists (Use s' :: pre), post. split; [reflexivity|]. cbn. now f_equal.
Qed.
Lemma first_unique (P : call T -> Prop) : forall l1 l2 c1 c2 r1 r2, l1 ++ c1 :: r1 = l2 ++ c2 :: r2 -> P c1 -> P c2 ->
  (forall c, In c l1 -> ~ P c) -> (forall c, In c l2 -> ~ P c) -> l1 = l2.
Proof.
  induction l1 as [|a l1 IH]; intros [|b l2] c1 c2 r1 r2 E P1 P2 N1 N2; [reflexivity| | |]; injection E as E1 E2; subst.
  - destruct (N2 b (or_introl eq_refl) P1).
  - destruct (N1 c2 (or_introl eq_refl) P2).
  - f_equal. eapply IH; [exact E2|exact P1|exact P2| |]; intros c I; [apply N1|apply N2]; now right.
Qed.
(** All the conversions between pixels and directions of a history use the same matrix: they are
    inverse of each other. *)
Theorem C111_inverse : forall cs m vs i j a b, run cs (me_init t0) = Some (m, vs) ->
  nth_error (uses_of cs) i = Some a -> nth_error (uses_of cs) j = Some b ->
  a = To_camera \/ a = To_screen -> b = To_camera \/ b = To_screen ->
  exists k, nth_error vs i = Some (Matrix k) /\ nth_error vs j = Some (Matrix k).
Proof.
  intros cs m vs i j a b R Ea Eb Ca Cb. destruct (use_at cs i a Ea) as (p1 & q1 & E1 & <-), (use_at cs j b Eb) as (p2 & q2 & E2 & <-). 
  assert (R1 := R). assert (R2 := R). rewrite E1 in R1. rewrite E2 in R2.
  destruct (C111_first_use _ _ _ _ _ R1) as (b1 & c1 & a1 & F1 & S1 & N1 & ->), (C111_first_use _ _ _ _ _ R2) as (b2 & c2 & a2 & F2 & S2 & N2 & ->).
  assert (U : forall s (c : call T), s = To_camera \/ s = To_screen -> settles s c <-> settles To_camera c) by (intros s c [->| ->]; reflexivity).
  assert (B : b1 = b2).
  { apply (first_unique (settles To_camera) b1 b2 c1 c2 (a1 ++ q1) (a2 ++ q2)).
    - transitivity cs; [rewrite E1|rewrite E2]; [change (p1 ++ Use a :: q1) with (p1 ++ [Use a] ++ q1)|change (p2 ++ Use b :: q2) with (p2 ++ [Use b] ++ q2)]; rewrite app_assoc, ?F1, ?F2, <- app_assoc; reflexivity.
    - now apply (U a).
    - now apply (U b).
    - intros c I S. apply (N1 c I). now apply (U a).
    - intros c I S. apply (N2 c I). now apply (U b). }
  rewrite B. eexists. destruct Ca as [->| ->], Cb as [->| ->]; split; reflexivity.
Qed.
End Props.
Print Assumptions C111_first_use.
Print Assumptions C111_one_camera.
Print Assumptions C111_inverse.

(** ** Examples *)
Definition small : camera := mkCamera 640 480 (Some 550%Q) (Some 550%Q) (Some 320%Q) (Some 240%Q).
Definition large : camera := mkCamera 1280 960 (Some 1100%Q) (Some 1100%Q) (Some 640%Q) (Some 480%Q).
Definition load (c : camera) : call unit := Params (PParse (Some (mkFile c c tt))).
(** A program that loads one file works with it everywhere. *)
Example C111_example : exists m vs, run tt (load large :: construction ++ [Use To_screen; Use In_screen; Use Screen_covariance]) (me_init tt) = Some (m, vs) /\
  vs = map (fun s => wanted s large) [To_camera; Search_windows; To_screen; In_screen; Screen_covariance].
Proof. do 2 eexists. split; [vm_compute; reflexivity|vm_compute; reflexivity]. Qed.
Example C111_one_camera_applies : forall pre c post, load large :: construction ++ [Use To_screen; Use In_screen; Use Screen_covariance] = pre ++ c :: post ->
  (exists s, settles s c) -> camera_loaded pre = large.
Proof.
  intros pre c post E [s S]. do 7 (destruct pre as [|? pre]; [injection E as <- _; destruct s; cbn in S; intuition discriminate || reflexivity|injection E as <- E]); try (destruct pre; discriminate).
Qed.
(** A program that loads a second file mixes the two cameras: the second object of the library
    is made, with windows of the first size and pixels of the second one. *)
Theorem C111_second_file_refuted : exists cs m vs, run tt (load small :: construction ++ load large :: construction ++ cs) (me_init tt) = Some (m, vs) /\
  camera_loaded (load small :: construction ++ load large :: construction ++ cs) = large /\
  vs = [wanted To_camera small; wanted Search_windows small; wanted To_camera small; wanted Search_windows small; wanted In_screen large; wanted Camera_covariance large] /\
  wanted Search_windows small <> wanted Search_windows large /\ wanted To_camera small <> wanted To_camera large.
Proof.
  exists [Use In_screen; Use Camera_covariance]. do 2 eexists. split; [vm_compute; reflexivity|]. split; [vm_compute; reflexivity|]. split; [vm_compute; reflexivity|].
  split; vm_compute; discriminate.
Qed.
(** A conversion made before the first file is loaded makes the matrix null for ever. *)
Theorem C111_before_load_refuted : exists m vs, run tt (Use To_screen :: load small :: construction) (me_init tt) = Some (m, vs) /\
  nth_error vs 1 = Some (Matrix (Some 0%Q, Some 0%Q, Some 0%Q, Some 0%Q)).
Proof. do 2 eexists. split; [vm_compute; reflexivity|vm_compute; reflexivity]. Qed.
Print Assumptions C111_second_file_refuted.
Print Assumptions C111_before_load_refuted.
