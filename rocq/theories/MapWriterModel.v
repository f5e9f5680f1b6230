(** Model of the writers of the map.
    Source: /repo/src/outputs/map_writer.cpp and map_writer.hpp.
    A file is the list of its lines. Oracle: the type of points; the text of a number is
    not modelled. Simplified: the file is open and never fails (the program exits when it
    cannot be opened, map_writer.cpp:7-15), the number of vertices fits the [size_t] of the
    counter and the number of points of a polygon fits the [uint] of the loop. *)
From Coq Require Export List NArith String Lia.
Export ListNotations.
Local Open Scope N_scope.

Section Writer.
Context {P : Type}.

(** the calls of the interface, map_writer.hpp:18-22; the normal of a polygon is ignored
    (map_writer.cpp:42, 86, 137) *)
Inductive call := AddPoint (p : P) | AddLine (l : list P) | AddPolygon (l : list P).

(** one line of text *)
Inductive line :=
| Text (s : string)             (** header *)
| Points_header (n : N)         (** "POINTS n" *)
| Coordinates (p : P)           (** "x y z" *)
| Vertex (p : P)                (** "v x y z" *)
| Element (kind : string) (vertices : list N). (** "p i", "l i j ...", "f i j ..." *)

(** ** XYZ_Map_Writer, map_writer.cpp:26-45 *)
Definition xyz_call (c : call) : list line :=
  match c with AddPoint p => [Coordinates p] | AddLine _ => [] | AddPolygon _ => [] end.
Definition xyz_file (calls : list call) : list line := flat_map xyz_call calls.

(** ** PCD_Map_Writer, map_writer.cpp:51-89 *)
Definition pcd_header : list line :=
  [Text "# .PCD v.7 - Point Cloud Data file format"; Text "VERSION .7"; Text "FIELDS x y z";
   Text "SIZE 4 4 4"; Text "TYPE F F F"; Points_header 0; Text "DATA ascii"].
Definition pcd_call (c : call) : list line :=
  match c with AddPoint p => [Coordinates p] | AddLine _ => [] | AddPolygon _ => [] end.
Definition pcd_file (calls : list call) : list line := pcd_header ++ flat_map pcd_call calls.

(** ** OBJ_Map_Writer *)

(** [_file] and [_vertexIndex], map_writer.hpp:76 *)
Record obj := mkObj { o_file : list line; o_index : N }.
Definition obj_init : obj := mkObj [] 1.

(** the body of the loops of [add_line] and [add_polygon]: write a vertex, record its index,
    map_writer.cpp:119-124, 145-148 *)
Definition add_vertex (s : obj * list N) (p : P) : obj * list N :=
  let '(o, vertices) := s in
  (mkObj (o_file o ++ [Vertex p]) (o_index o + 1), vertices ++ [o_index o]).

(** the points visited by [for (uint i = coordinates.size() - 1; i > 0; --i)],
    map_writer.cpp:143 *)
Fixpoint countdown (coordinates : list P) (i : nat) : list P :=
  match i with
  | O => []
  | S j => match nth_error coordinates i with Some p => p :: countdown coordinates j | None => countdown coordinates j end
  end.

Definition obj_call (o : obj) (c : call) : obj :=
  match c with
  | AddPoint p =>
    (** map_writer.cpp:96-108 *)
    let index := o_index o + 1 in
    mkObj (o_file o ++ [Vertex p] ++ [Element "p" [index]]) index
  | AddLine l =>
    (** map_writer.cpp:110-126 *)
    let '(o', vertices) := fold_left add_vertex l (o, []) in
    mkObj (o_file o' ++ [Element "l" vertices]) (o_index o')
  | AddPolygon l =>
    (** map_writer.cpp:128-156 *)
    match l with
    | [] => o
    | _ :: _ =>
      let '(o', vertices) := fold_left add_vertex (countdown l (List.length l - 1)) (o, []) in
      mkObj (o_file o' ++ [Element "f" vertices]) (o_index o')
    end
  end.
Definition obj_file (calls : list call) : list line := o_file (fold_left obj_call calls obj_init).
End Writer.
Arguments call : clear implicits.
Arguments line : clear implicits.
