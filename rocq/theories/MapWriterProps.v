(** Properties C40 and C41: files of the map. *)
From Verif Require Import MapWriterModel MapWriterSpec.
From Coq Require Import List.
Local Open Scope string_scope.
Local Open Scope list_scope.

Section Props.
Context {P : Type}.

Lemma vertices_app : forall a b : list (line P), vertices (a ++ b) = vertices a ++ vertices b.
Proof. intros. apply flat_map_app. Qed.
Lemma read_app : forall a b before, @read P before (a ++ b) = read before a ++ read (before ++ vertices a) b.
Proof.
  induction a as [|l a IH]; intros b before; cbn; [now rewrite app_nil_r|].
  destruct l; cbn; rewrite IH; try reflexivity. now rewrite <- app_assoc.
Qed.

(** the numbers from [first] *)
Fixpoint numbers (first : N) (n : nat) : list N :=
  match n with O => [] | S n' => first :: numbers (first + 1) n' end.

Lemma add_vertices : forall l (o : @obj P) vs,
  fold_left add_vertex l (o, vs) =
  (mkObj (o_file o ++ map Vertex l) (o_index o + N.of_nat (length l)), vs ++ numbers (o_index o) (length l)).
Proof.
  induction l as [|p l IH]; intros o vs.
  - cbn. rewrite !app_nil_r, N.add_0_r. now destruct o.
  - cbn [fold_left add_vertex map length numbers]. rewrite IH. cbn [o_file o_index].
    rewrite <- !app_assoc. cbn [app]. f_equal. f_equal. lia.
Qed.

Lemma read_vertices : forall l before, @read P before (map Vertex l) = [].
Proof. induction l; intros; cbn; [easy|apply IHl]. Qed.
Lemma vertices_vertices : forall l, @vertices P (map Vertex l) = l.
Proof. induction l; cbn; [easy|]. f_equal. apply IHl. Qed.

Lemma vertex_numbers : forall l before after,
  map (@vertex P (before ++ l ++ after)) (numbers (N.of_nat (length before) + 1) (length l)) = map Some l.
Proof.
  induction l as [|p l IH]; intros before after; [easy|]. cbn [length numbers map].
  f_equal.
  - unfold vertex. destruct (N.of_nat (length before) + 1)%N eqn:E; [lia|]. rewrite <- E.
    replace (N.to_nat (N.of_nat (length before) + 1) - 1) with (length before) by lia.
    rewrite nth_error_app2 by lia. now rewrite PeanoNat.Nat.sub_diag.
  - specialize (IH (before ++ [p]) after). rewrite app_length in IH. cbn in IH. rewrite <- app_assoc in IH. cbn in IH.
    replace (N.of_nat (length before) + 1 + 1)%N with (N.of_nat (length before + 1) + 1)%N by lia. exact IH.
Qed.

Lemma countdown_rev : forall l i, i < length l -> @countdown P l i = rev (firstn i (tl l)).
Proof.
  intros l i. induction i as [|i IH]; intros H; [easy|].
  cbn [countdown]. rewrite IH by lia. destruct l as [|x l]; cbn in H; [lia|]. cbn [tl].
  change (nth_error (x :: l) (S i)) with (nth_error l i).
  destruct (nth_error l i) as [p|] eqn:E; [|apply nth_error_None in E; lia].
  assert (firstn (S i) l = firstn i l ++ [p]) as ->.
  { clear - E. revert i E. induction l as [|y l IH]; intros [|i] E; cbn in *; try easy; [now injection E as ->|].
    now rewrite (IH i E). }
  now rewrite rev_app_distr.
Qed.
Lemma countdown_all : forall x l, @countdown P (x :: l) (length (x :: l) - 1) = rev l.
Proof.
  intros x l. rewrite countdown_rev by (cbn; lia). cbn. now rewrite PeanoNat.Nat.sub_0_r, firstn_all.
Qed.

(** the vertices that a call writes *)
Definition written (c : call P) : list P :=
  match c with AddPoint p => [p] | AddLine l => l | AddPolygon l => rev (tl l) end.

Definition good (o : @obj P) : Prop := o_index o = (N.of_nat (length (vertices (o_file o))) + 1)%N.

Lemma obj_call_spec : forall o c, good o ->
  good (obj_call o c) /\
  exists added, o_file (obj_call o c) = o_file o ++ added /\ vertices added = written c /\
    read (vertices (o_file o)) added =
      match c with
      | AddPoint p => [("p", [None])]
      | AddLine l => [("l", map Some l)]
      | AddPolygon [] => []
      | AddPolygon (_ :: l) => [("f", map Some (rev l))]
      end.
Proof.
  intros o c G. unfold good in *.
  assert (L : forall l k,
    let '(o', vs) := fold_left add_vertex l (o, []) in
    let o2 := mkObj (o_file o' ++ [Element k vs]) (o_index o') in
    good o2 /\ exists added, o_file o2 = o_file o ++ added /\ vertices added = l /\
      read (vertices (o_file o)) added = [(k, map Some l)]).
  { intros l k. rewrite add_vertices. cbn [app o_file o_index]. rewrite <- app_assoc. split.
    - unfold good. cbn [o_file o_index]. rewrite !vertices_app, vertices_vertices, !app_length. cbn. lia.
    - exists (map Vertex l ++ [Element k (numbers (o_index o) (length l))]). split; [easy|].
      split; [rewrite vertices_app, vertices_vertices; apply app_nil_r|].
      rewrite read_app, read_vertices, vertices_vertices. cbn [app read]. rewrite G.
      rewrite <- (app_nil_r (vertices (o_file o) ++ l)), <- app_assoc, vertex_numbers. easy. }
  destruct c as [p|l|[|x l]].
  - cbn [obj_call o_file o_index]. split.
    + rewrite !vertices_app, !app_length. cbn. lia.
    + eexists. split; [reflexivity|]. split; [reflexivity|]. cbn [read app].
      f_equal. f_equal. cbn [map]. f_equal. rewrite G. unfold vertex.
      destruct (N.of_nat (length (vertices (o_file o))) + 1 + 1)%N eqn:E; [lia|]. rewrite <- E.
      apply nth_error_None. rewrite app_length. cbn. lia.
  - specialize (L l "l"). cbn [obj_call]. destruct (fold_left add_vertex l (o, [])). exact L.
  - cbn [obj_call]. split; [easy|]. exists []. rewrite app_nil_r. easy.
  - specialize (L (rev l) "f"). cbn [obj_call]. rewrite countdown_all.
    destruct (fold_left add_vertex (rev l) (o, [])). exact L.
Qed.

Lemma obj_calls_spec : forall calls o, good o ->
  let o' := fold_left obj_call calls o in
  good o' /\ exists added, o_file o' = o_file o ++ added /\ vertices added = flat_map written calls /\
    read (vertices (o_file o)) added = flat_map (fun c =>
      match c with
      | AddPoint p => [("p", [None])]
      | AddLine l => [("l", map Some l)]
      | AddPolygon [] => []
      | AddPolygon (_ :: l) => [("f", map Some (rev l))]
      end) calls.
Proof.
  induction calls as [|c calls IH]; intros o G.
  - split; [easy|]. exists []. now rewrite app_nil_r.
  - cbn [fold_left flat_map]. destruct (obj_call_spec o c G) as (G1 & a1 & F1 & V1 & R1).
    destruct (IH _ G1) as (G2 & a2 & F2 & V2 & R2). split; [easy|].
    exists (a1 ++ a2). rewrite F2, F1, <- app_assoc. split; [easy|].
    rewrite vertices_app, V1, V2. split; [easy|].
    rewrite read_app, R1. f_equal. rewrite F1, vertices_app in R2. exact R2.
Qed.

Lemma good_init : good obj_init.
Proof. reflexivity. Qed.

(** C40: in an OBJ file, the elements other than points are, in order, those of the calls:
    each line references its points, each face the boundary of its polygon without its
    first point, in the reverse order, and each reference is to a vertex written before. *)
Theorem C40_lines_and_faces : forall calls : list (call P),
  points_or_not false (elements (obj_file calls)) =
  flat_map (fun c => match c with
                     | AddPoint _ => []
                     | AddLine l => [("l", map Some l)]
                     | AddPolygon [] => []
                     | AddPolygon (_ :: boundary) => [("f", map Some (rev boundary))]
                     end) calls.
Proof.
  intros calls. destruct (obj_calls_spec calls obj_init good_init) as (_ & added & F & _ & R).
  unfold elements, obj_file. rewrite F. cbn [o_file obj_init app]. cbn [o_file obj_init vertices flat_map] in R. rewrite R.
  clear. induction calls as [|[p|l|[|x l]] calls IH]; cbn; [easy|apply IH|f_equal; apply IH|apply IH|f_equal; apply IH].
Qed.

(** The boundary of a polygon starts and ends with the same point: all the points are in
    the face, once. *)
Theorem C40_closed_boundary : forall before after (p : P) ring,
  exists faces faces',
  points_or_not false (elements (obj_file (before ++ [AddPolygon (p :: ring ++ [p])] ++ after))) =
  faces ++ [("f", map Some (p :: rev ring))] ++ faces' /\
  faces = points_or_not false (elements (obj_file before)).
Proof.
  intros before after p ring. rewrite !C40_lines_and_faces, !flat_map_app. eexists _, _. split; [|reflexivity].
  cbn [flat_map app]. rewrite rev_app_distr. reflexivity.
Qed.

(** Every vertex of the file is one that a call wrote, in order: nothing is lost nor shared. *)
Theorem C40_vertices : forall calls : list (call P),
  vertices (obj_file calls) =
  flat_map (fun c => match c with AddPoint p => [p] | AddLine l => l | AddPolygon l => rev (tl l) end) calls.
Proof.
  intros calls. destruct (obj_calls_spec calls obj_init good_init) as (_ & added & F & V & _).
  unfold obj_file. rewrite F. exact V.
Qed.

(** False for the points: no point element references a vertex written before it; *)
Theorem C40_points_never_resolved : forall calls : list (call P),
  points_or_not true (elements (obj_file calls)) = map (fun _ => ("p", [None])) (flat_map points_of calls).
Proof.
  intros calls. destruct (obj_calls_spec calls obj_init good_init) as (_ & added & F & _ & R).
  unfold elements, obj_file. rewrite F. cbn [o_file obj_init app]. cbn [o_file obj_init vertices flat_map] in R. rewrite R.
  clear. induction calls as [|[p|l|[|x l]] calls IH]; cbn; [easy|f_equal; apply IH|apply IH|apply IH|apply IH].
Qed.

(** the reference is to the first vertex written after it, if any. *)
Theorem C40_point_references_the_next_vertex : forall before (p : P) after,
  exists index, obj_file (before ++ [AddPoint p]) = obj_file before ++ [Vertex p; Element "p" [index]] /\
    vertex (vertices (obj_file (before ++ [AddPoint p] ++ after))) index = hd_error (flat_map written after).
Proof.
  intros before p after.
  destruct (obj_calls_spec before obj_init good_init) as (G & _ & _ & _ & _).
  exists (o_index (fold_left obj_call before obj_init) + 1)%N. split.
  - unfold obj_file. rewrite fold_left_app. reflexivity.
  - rewrite C40_vertices, !flat_map_app. rewrite G.
    fold (obj_file before). rewrite C40_vertices. fold written.
    change (fun c : call P => _) with written.
    set (v := flat_map written before). unfold vertex.
    destruct (N.of_nat (length v) + 1 + 1)%N eqn:E; [lia|]. rewrite <- E.
    replace (N.to_nat (N.of_nat (length v) + 1 + 1) - 1) with (S (length v)) by lia.
    rewrite nth_error_app2 by lia. replace (S (length v) - length v) with 1 by lia.
    cbn. now destruct (flat_map written after).
Qed.

(** C41: an XYZ file has one line by added point, in order, and nothing else; *)
Theorem C41_xyz : forall calls : list (call P), xyz_file calls = map Coordinates (flat_map points_of calls).
Proof. induction calls as [|[p|l|l] calls IH]; cbn; [easy|f_equal; apply IH|apply IH|apply IH]. Qed.

(** a PCD file has, after a header of seven lines, one line by added point, in order. *)
Theorem C41_pcd : forall calls : list (call P),
  skipn 7 (pcd_file calls) = map Coordinates (flat_map points_of calls) /\
  (forall n, In (Points_header n) (pcd_file calls) <-> n = 0%N).
Proof.
  intros calls. assert (E : flat_map pcd_call calls = map Coordinates (flat_map points_of calls)).
  { induction calls as [|[p|l|l] calls IH]; cbn; [easy|f_equal; apply IH|apply IH|apply IH]. }
  split; [exact E|]. intros n. unfold pcd_file. rewrite in_app_iff, E, in_map_iff. cbn. split.
  - intros [H|(p & H & _)]; [|easy]. repeat destruct H as [H|H]; try easy. now injection H.
  - intros ->. left. tauto.
Qed.
End Props.
Print Assumptions C40_lines_and_faces.
Print Assumptions C40_closed_boundary.
Print Assumptions C40_vertices.
Print Assumptions C40_points_never_resolved.
Print Assumptions C40_point_references_the_next_vertex.
Print Assumptions C41_xyz.
Print Assumptions C41_pcd.

(** a point, a triangle (closed), a line *)
Definition calls_example : list (call nat) := [AddPoint 7; AddPolygon [1; 2; 3; 1]; AddLine [4; 5]; AddPolygon []].
Example C40_example :
  obj_file calls_example =
    [Vertex 7; Element "p" [2%N]; Vertex 1; Vertex 3; Vertex 2; Element "f" [2; 3; 4]%N;
     Vertex 4; Vertex 5; Element "l" [5; 6]%N] /\
  elements (obj_file calls_example) =
    [("p", [None]); ("f", [Some 1; Some 3; Some 2]); ("l", [Some 4; Some 5])].
Proof. split; reflexivity. Qed.
Example C41_example :
  xyz_file calls_example = [Coordinates 7] /\ length (pcd_file calls_example) = 8.
Proof. split; reflexivity. Qed.

(** False: a point element does not reference its own vertex, *)
Theorem C40_points_refuted :
  exists calls : list (call nat), flat_map points_of calls = [7] /\
    points_or_not true (elements (obj_file calls)) <> [("p", [Some 7])].
Proof. exists [AddPoint 7]. split; [reflexivity|discriminate]. Qed.
Print Assumptions C40_points_refuted.
(** and the header of a PCD file does not announce the number of points. *)
Theorem C41_announced_number_refuted :
  exists calls : list (call nat), ~ In (Points_header (N.of_nat (length (flat_map points_of calls)))) (pcd_file calls).
Proof. exists [AddPoint 7]. intros H. now apply C41_pcd in H. Qed.
Print Assumptions C41_announced_number_refuted.
