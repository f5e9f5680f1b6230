(** Model of the odd-even correction of polygons.
    Source: /repo/third_party/correct_boost_polygon.hpp:366-382, 425-456, 459-532, 547-563, 579-598.
    The rings cut in an outline, each with its area, are arguments (they are modelled in
    DissolveModel); an area is only compared, it is an integer here. The operations of boost are
    arguments. A multi polygon is a list of polygons. *)
From Coq Require Import List ZArith Bool Arith.
Import ListNotations.

Section OddEven.
  Variable polygon : Type.
  (** [boost::geometry::sym_difference] *)
  Variable sym_difference : list polygon -> list polygon -> list polygon.
  (** the polygon of the outline in the other order *)
  Variable reversed : polygon -> polygon.
  Local Notation part := (list polygon * Z)%type.
  (** [std::sort] of 436, from the smallest area to the largest one *)
  Variable sort : list part -> list part.

  (** [fill_normalize_polygons], 366-382 *)
  Definition normalize (input : list part) : list part :=
    map (fun i => (map (fun poly => if (snd i <? 0)%Z then reversed poly else poly) (fst i), snd i)) input.
  (** [input[i].first = ...] *)
  Fixpoint assign (i : nat) (m : list polygon) (input : list part) : list part :=
    match input, i with
    | [], _ => []
    | (_, a) :: l, O => (m, a) :: l
    | e :: l, S i => e :: assign i m l
    end.
  (** the loop of 442-452; [k] indices from [i]; [None]: an element that does not exist is read *)
  Fixpoint pass (k i divide : nat) (input : list part) : option (list part) :=
    match k with
    | O => Some input
    | S k =>
      let index := i + divide in
      if index <? length input then
        match nth_error input index, nth_error input i with
        | Some b, Some a => pass k (S i) divide (assign i (sym_difference (fst b) (fst a)) input)
        | _, _ => None
        end
      else pass k (S i) divide input
    end.
  (** the loop of 439-455; [None]: as above, or the loop did not end in [fuel] rounds *)
  Fixpoint halve (fuel : nat) (input : list part) : option (list part) :=
    if 1 <? length input then
      match fuel with
      | O => None
      | S fuel =>
        let divide := length input / 2 + length input mod 2 in
        match pass (length input / 2) 0 divide input with
        | Some input => halve fuel (firstn divide input)
        | None => None
        end
      end
    else Some input.
  (** [fill_odd_even], 425-456 *)
  Definition fill_odd_even (input : list part) : option (list part) := halve (length input) (normalize (sort input)).
  (** 479-486: the outline of each ring becomes a multi polygon *)
  Definition parts (rings : list (polygon * Z)) : list part := map (fun r => ([fst r], snd r)) rings.
  (** [correct] of a polygon without hole, then with holes, 459-512: the rings of the outline and of
      each hole; the output is empty before *)
  Definition correct_outline (outer : list (polygon * Z)) (inners : list polygon) : option (list polygon) :=
    match fill_odd_even (parts outer) with
    | None => None
    | Some [] => Some []
    | Some (front :: _) => Some (sym_difference (fst front) inners)
    end.
  Fixpoint combine_holes (holes : list (list (polygon * Z))) (combined : list polygon) : option (list polygon) :=
    match holes with
    | [] => Some combined
    | h :: holes =>
      match correct_outline h [] with
      | None => None
      | Some new => combine_holes holes (sym_difference combined new)
      end
    end.
  Definition correct_polygon (outer : list (polygon * Z)) (holes : list (list (polygon * Z))) : option (list polygon) :=
    match combine_holes holes [] with
    | None => None
    | Some inners => correct_outline outer inners
    end.
  (** [correct] of a multi polygon, 514-530, as called by [correct_odd_even], 579-598 *)
  Fixpoint correct_odd_even (input : list (list (polygon * Z) * list (list (polygon * Z)))) (output : list polygon) : option (list polygon) :=
    match input with
    | [] => Some output
    | (outer, holes) :: input =>
      match correct_polygon outer holes with
      | None => None
      | Some new => correct_odd_even input (sym_difference output new)
      end
    end.
End OddEven.
