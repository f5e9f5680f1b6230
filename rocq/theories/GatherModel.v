(** Model of how the matches of the maps are put in one list.
    Source: /repo/src/map_management/local_map.hpp:78-100 and feature_map.hpp:308-326;
    the matches of one map are [get_matches] of FeatureMapModel. *)
From Verif Require Export FeatureMapModel LocalMapModel.

Section Gather.
Context {D Det Ctx View Mt U : Type}.
(** A match is a [std::shared_ptr] (matches_containers.hpp:203), whose [operator<] compares the
    addresses of the objects. *)
Variable addr : Mt -> Z.
Notation maps := (lmaps D Det Ctx View Mt U).

(** [std::list::merge], called at feature_map.hpp:325, as the GNU library does it: the front of the
    other list is moved before the current element while it is less, what is left of the other list is
    moved to the end. The standard only defines it for two sorted lists: [merge_allowed] below. *)
Fixpoint merge (a : list Mt) : list Mt -> list Mt :=
  fix merge_a (b : list Mt) : list Mt :=
    match a, b with
    | [], _ => b
    | _, [] => a
    | x :: a', y :: b' => if (addr y <? addr x)%Z then y :: merge_a b' else x :: merge a' b
    end.

(** [find_feature_matches], local_map.hpp:78-100, with the list [acc] given by reference to each map *)
Fixpoint gather (v : View) (dets : @detections Det) (ms : maps) (acc : list Mt)
  : outcome (maps * list Mt) :=
  match ms with
  | [] => Ret ([], acc)
  | (p, s) :: ms' =>
    let* (s', mt) := get_matches p v (p_min_features p) (dets (p_kind p)) s in
    let* (r, out) := gather v dets ms' (merge acc mt) in
    Ret ((p, s') :: r, out)
  end.
Definition find_feature_matches (v : View) (dets : @detections Det) (ms : maps) := gather v dets ms [].
End Gather.
