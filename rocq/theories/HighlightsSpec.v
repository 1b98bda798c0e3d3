(** Independent specification of overlapping highlights. *)
From Verif Require Import Base HighlightsModel.

Definition covers (r : hl_range) (o : nat) : Prop := h_start r <= o < h_end r.
Definition inside (a b : hl_range) : Prop := h_start b <= h_start a /\ h_end a <= h_end b.
Definition disjoint_ranges (a b : hl_range) : Prop := h_end a <= h_start b \/ h_end b <= h_start a.
(** ranges of syntax elements: nested or disjoint *)
Definition compatible (a b : hl_range) : Prop := inside a b \/ inside b a \/ disjoint_ranges a b.
Definition wf (r : hl_range) : Prop := h_start r <= h_end r.
Definition size (r : hl_range) : nat := h_end r - h_start r.

(** non-empty adjacent pieces from s to e *)
Inductive tiles : nat -> nat -> list hl_range -> Prop :=
| tiles_nil s : tiles s s []
| tiles_cons s m e t l : s < m -> tiles m e l -> tiles s e (mkHl s m t :: l).

(** The winning range at an offset: the smallest covering one, the latest among equally small ones. *)
Definition winner (ranges : list hl_range) (o : nat) (w : hl_range) : Prop :=
  exists pre post, ranges = pre ++ w :: post /\ covers w o /\
    (forall y, In y pre -> covers y o -> size w <= size y) /\
    (forall y, In y post -> covers y o -> size w < size y).

(** All elements of a tree in preorder with their ranges and attached highlight. *)
Fixpoint elem_width (e : elem) : nat :=
  match e with
  | Tok n _ => n
  | Nd _ l => list_sum (map elem_width l)
  end.

(** [at_range root off e s]: [e] occurs in [root] (placed at [off]) and starts at offset [s]. *)
Inductive occurs : elem -> nat -> elem -> nat -> Prop :=
| occurs_here e s : occurs e s e s
| occurs_child hl l1 c l2 off e s :
    occurs c (off + list_sum (map elem_width l1)) e s -> occurs (Nd hl (l1 ++ c :: l2)) off e s.
