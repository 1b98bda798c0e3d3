(** Model of the stored location of a syntax node.
    crates/lang/src/loc.rs, with SyntaxNodePtr of rowan 0.15.15 (ast.rs `try_to_node`, cursor.rs
    `child_or_token_at_range`, green/node.rs `child_at_range`) modelled from its published source. *)
From Verif Require Import Base SyntaxKind TextEditModel TreeSinkModel TreeDiffModel EditorModel SelectionModel.
Close Scope N_scope.
Open Scope nat_scope.

(** SyntaxLoc without the file and the debug name, loc.rs:17-24: the kind and the range of the node *)
Record loc := mkLoc { l_kind : kind; l_range : range }.
(** SyntaxLoc::new, loc.rs:38-45 *)
Definition loc_of (t : tree) (p : place_path) : option loc :=
  match element_at t p with Some (TNode k _) => Some (mkLoc k (range_at t p)) | _ => None end.
(** TextRange::ordering of text-size: before, overlapping, behind *)
Definition ordering (a b : range) : comparison :=
  if r_end a <=? r_start b then Lt else if r_end b <=? r_start a then Gt else Eq.
Definition contains_range (a b : range) : bool := (r_start a <=? r_start b) && (r_end b <=? r_end a).
(** GreenNodeData::child_at_range: binary search for a child that overlaps the range; without one the child before the
    place of insertion.  The children are in order, so those before the range come first, and at most one child
    overlaps a range that lies in a child.  [o] is the offset of the first child of [ch]; the result is the index and
    the offset. *)
Fixpoint skip_before (r : range) (o i : nat) (prev : nat * nat) (ch : list tree) : nat * nat :=
  match ch with
  | [] => prev
  | c :: rest =>
      let rc := mkRange o (o + length (elem_text c)) in
      match ordering rc r with
      | Lt => skip_before r (r_end rc) (S i) (i, o) rest
      | Eq => (i, o)
      | Gt => prev
      end
  end.
Definition child_at_range (r : range) (o : nat) (ch : list tree) : option (nat * nat) :=
  let (i, oi) := skip_before r o 0 (0, o) ch in
  match nth_error ch i with
  | Some c => if contains_range (mkRange oi (oi + length (elem_text c))) r then Some (i, oi) else None
  | None => None
  end.
(** SyntaxNodePtr::try_to_node: from the root down through the children at the range, the first node with the range
    and the kind *)
Definition range_eqb (a b : range) : bool := (r_start a =? r_start b) && (r_end a =? r_end b).
Fixpoint find_ptr (k : kind) (r : range) (t : tree) : nat -> option place_path :=
  fun o =>
  match t with
  | TTok _ _ => None
  | TNode k' ch =>
      if range_eqb (mkRange o (o + length (elem_text (TNode k' ch)))) r && kind_eqb k' k then Some []
      else match child_at_range r o ch with
           | None => None
           | Some (i, oi) => match nth_error (map (find_ptr k r) ch) i with Some f => option_map (cons i) (f oi) | None => None end
           end
  end.
(** SyntaxLoc::to_syntax_node and get_source_file, loc.rs:68-73, 119-130: a location behind the end of the file is stale *)
Definition to_node (t : tree) (l : loc) : option place_path :=
  if r_end (l_range l) <=? length (elem_text t) then find_ptr (l_kind l) (l_range l) t 0 else None.
(** SyntaxLoc::contains, loc.rs:111-117, in one file *)
Definition loc_contains (a b : loc) : bool := contains_range (l_range a) (l_range b).
