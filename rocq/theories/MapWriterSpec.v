(** How the files of the map are read. *)
From Verif Require Import MapWriterModel.

Section Spec.
Context {P : Type}.

(** the vertices of an OBJ file, numbered from 1 *)
Definition vertices (file : list (line P)) : list P :=
  flat_map (fun l => match l with Vertex p => [p] | _ => [] end) file.
Definition vertex (points : list P) (index : N) : option P :=
  match index with 0%N => None | _ => nth_error points (N.to_nat index - 1) end.

(** the elements of an OBJ file, each with what its references are among the vertices
    written before it *)
Fixpoint read (before : list P) (file : list (line P)) : list (string * list (option P)) :=
  match file with
  | [] => []
  | Vertex p :: rest => read (before ++ [p]) rest
  | Element kind indexes :: rest => (kind, map (vertex before) indexes) :: read before rest
  | _ :: rest => read before rest
  end.
Definition elements (file : list (line P)) := read [] file.
Definition points_or_not (b : bool) (l : list (string * list (option P))) :=
  filter (fun e => Bool.eqb b (String.eqb (fst e) "p")) l.

(** the points of a call *)
Definition points_of (c : call P) : list P :=
  match c with AddPoint p => [p] | AddLine _ => [] | AddPolygon _ => [] end.
End Spec.
