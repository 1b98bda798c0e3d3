(** Independent specification of text editing: what it means to replace ranges of a text. *)
From Coq Require Import Permutation Sorted.
From Verif Require Import Base TextEditModel.

(** [edited pos t cs out]: [t] is the part of the original text from offset [pos] on, [cs] are the
    changes still to do, given by offsets into the original text from left to right, and [out] is
    [t] with exactly those ranges replaced. *)
Inductive edited : nat -> text -> list change -> text -> Prop :=
| edited_nil : forall pos t, edited pos t [] t
| edited_cons : forall pos keep old rest new cs out s e,
    s = pos + length keep ->
    e = s + length old ->
    edited e rest cs out ->
    edited pos (keep ++ old ++ rest) (mkChange (mkRange s e) new :: cs) (keep ++ new ++ out).

(** Two changes do not overlap (touching is allowed; insertions at one place do not overlap). *)
Definition disjoint (a b : change) : Prop := c_end a <= c_start b \/ c_end b <= c_start a.

(** A well-formed change: a real range and replacement text that is a Rust string. *)
Definition wf_change (c : change) : Prop := c_start c <= c_end c /\ starts_at_char (c_text c).

(** Document order without overlap, as the invariant of [TextEdit] demands. *)
Inductive in_order : list change -> Prop :=
| io_nil : in_order []
| io_one : forall c, in_order [c]
| io_cons : forall a b l, c_end a <= c_start b -> in_order (b :: l) -> in_order (a :: b :: l).

(** A change addresses the text [t]: it lies inside and does not cut a character. *)
Definition fits (t : text) (c : change) : Prop :=
  c_end c <= length t /\
  is_char_boundary t (c_start c) = true /\ is_char_boundary t (c_end c) = true.

(** [PairwiseDisjoint l]: any two list positions hold non-overlapping changes. *)
Definition pairwise_disjoint (l : list change) : Prop := ForallOrdPairs disjoint l.

(** Position of a change in the document: by start, then by end. *)
Definition before_or_same (a b : change) : Prop :=
  c_start a < c_start b \/ (c_start a = c_start b /\ c_end a <= c_end b).
Definition same_place (a b : change) : bool :=
  (c_start a =? c_start b) && (c_end a =? c_end b).

(** [document_order l s]: [s] is [l] rearranged into document order, keeping changes at the same
    place in the order they were given. *)
Definition document_order (l s : list change) : Prop :=
  Permutation l s /\
  StronglySorted before_or_same s /\
  forall c, filter (same_place c) l = filter (same_place c) s.
