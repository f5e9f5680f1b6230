(** Specification of the plane extraction: what the words of the properties mean. *)
From Verif Require Import PrimitiveModel.

(** number of cells in bin [b] *)
Definition cells_in (h : histogram) (b : nat) : nat := count_if (fun i => (h_bins h i =? Z.of_nat b)%Z) (h_n h).

Section Grid.
Variables H V : nat.
Notation total := (PrimitiveModel.total H V).
Implicit Types i j : nat.
(** the cell at the left, right, top or bottom, in the grid *)
Definition adjacent i j : Prop :=
  i < total /\ j < total /\
  ((i / H = j / H /\ (i mod H = S (j mod H) \/ j mod H = S (i mod H))) \/
   (i mod H = j mod H /\ (i / H = S (j / H) \/ j / H = S (i / H)))).

Variable can_merge : nat -> nat -> bool.
Variable free : nat -> bool.
(** a cell can be entered from another *)
Definition entry (from i : nat) : Prop := free i = true /\ can_merge from i = true.
(** cells reachable from the seed by neighbour steps to free cells accepted by the
    merge test with the cell they are entered from; the seed is tested with itself *)
Inductive reach (seed : nat) : nat -> Prop :=
| reach_seed : seed < total -> entry seed seed -> reach seed seed
| reach_step i j : reach seed i -> adjacent i j -> entry i j -> reach seed j.

End Grid.

(** groups of cells, taken in the given cells, without common cell *)
Definition disjoint_groups (act : list nat) (groups : list (list nat)) : Prop :=
  Forall (fun g => NoDup g /\ incl g act) groups /\
  forall a b ga gb i, nth_error groups a = Some ga -> nth_error groups b = Some gb -> In i ga -> In i gb -> a = b.

(** a plane made of growth has its seed twice, one made of a cylinder part has no
    repetition *)
Definition plane_shape (cells : list nat) : Prop :=
  NoDup cells \/ exists s l, cells = s :: l /\ In s l /\ NoDup l.

(** ** Merge of planes *)
Section Merge.
Variable seg_merge : list nat -> list nat -> bool.
Variable seg : nat -> segment.
Variable con : nat -> nat -> bool.
(** [linked id j]: plane [j] can be joined to plane [id] by adjacent planes, each
    accepted by the merge test with the plane [id] as it was fitted at some time;
    [merged_fit id f]: [f] is a fit of plane [id] alone, or with planes linked to it *)
Inductive linked : nat -> nat -> Prop :=
| linked_refl id : linked id id
| linked_step id row c f :
    linked id row -> con row c = true -> s_planar (seg c) = true -> merged_fit id f -> seg_merge f (s_fit (seg c)) = true -> linked id c
with merged_fit : nat -> list nat -> Prop :=
| fit_own id : merged_fit id (s_fit (seg id))
| fit_more id ms : all_linked id ms -> merged_fit id (s_cells (seg id) ++ flat_map (fun j => s_cells (seg j)) ms)
with all_linked : nat -> list nat -> Prop :=
| all_nil id : all_linked id []
| all_cons id j ms : all_linked id ms -> linked id j -> all_linked id (ms ++ [j]).

End Merge.
