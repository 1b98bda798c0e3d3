(** Model of crates/ide-db/src/syntax_helpers/tree_diff.rs and of its use in
    crates/ide-db/src/source_change.rs:177-199.

    A syntax element of the old tree is identified by its path from the root of the diff (rowan compares
    elements by identity); offsets are those of the file.  The iteration order of the [HashMap] of
    replacements is arbitrary: [into_changes] takes it as an argument. *)
From Verif Require Import Base SyntaxKind TextEditModel TreeSinkModel.

(** tree_diff.rs:14-18 TreeDiffInsertPos *)
Inductive insert_pos := After (path : list nat) | AsFirstChild (path : list nat).
Definition pos_eq_dec : forall a b : insert_pos, {a = b} + {a <> b}.
Proof. decide equality; apply (list_eq_dec Nat.eq_dec). Defined.

(** tree_diff.rs:21-27 TreeDiff: the replaced and deleted elements by their ranges, the insertions as a map in
    insertion order with the offset of the anchor and the texts of the new elements *)
Record tree_diff := mkDiff {
  d_replacements : list (range * text);
  d_deletions : list range;
  d_insertions : list (insert_pos * (nat * list text))
}.
Definition no_diff : tree_diff := mkDiff [] [] [].

(** [diff.insertions.entry(pos).or_default().extend(new)] *)
Fixpoint entry_extend (k : insert_pos) (off : nat) (new : list text) (l : list (insert_pos * (nat * list text))) : list (insert_pos * (nat * list text)) :=
  match l with
  | [] => [(k, (off, new))]
  | (k', (o, old)) :: r => if pos_eq_dec k k' then (k', (o, old ++ new)) :: r else (k', (o, old)) :: entry_extend k off new r
  end.
Definition add_insertion (k : insert_pos) (off : nat) (new : list text) (d : tree_diff) : tree_diff :=
  mkDiff (d_replacements d) (d_deletions d) (entry_extend k off new (d_insertions d)).
Definition add_deletion (r : range) (d : tree_diff) : tree_diff := mkDiff (d_replacements d) (d_deletions d ++ [r]) (d_insertions d).
Definition add_replacement (r : range) (t : text) (d : tree_diff) : tree_diff := mkDiff (d_replacements d ++ [(r, t)]) (d_deletions d) (d_insertions d).

(** the text of an element, [SyntaxElement::to_string] *)
Fixpoint elem_text (t : tree) : text := match t with TNode _ ch => flat_map elem_text ch | TTok _ x => x end.
Definition tree_kind (t : tree) : kind := match t with TNode k _ => k | TTok k _ => k end.
(** syntax_element_eq, l71-82 *)
Definition element_eq (l r : tree) : bool :=
  kind_eqb (tree_kind l) (tree_kind r) && (length (elem_text l) =? length (elem_text r)) &&
  match l, r with
  | TNode _ _, TNode _ _ => text_eqb (elem_text l) (elem_text r)
  | TTok _ a, TTok _ b => text_eqb a b
  | _, _ => false
  end.
(** the look-ahead, l121-130: the elements before the next one equal to [l], and those after it *)
Fixpoint look_ahead (l : tree) (rs : list tree) : option (list tree * list tree) :=
  match rs with
  | [] => None
  | r :: rs' => if element_eq l r then Some ([], rs') else option_map (fun '(a, b) => (r :: a, b)) (look_ahead l rs')
  end.
(** l102-109: the remaining new elements are pushed one by one *)
Fixpoint push_rest (k : insert_pos) (off : nat) (rs : list tree) (d : tree_diff) : tree_diff :=
  match rs with [] => d | r :: rs' => push_rest k off rs' (add_insertion k off [elem_text r] d) end.

(** the insertion position: after the previous old child, or as first child of the node; with its offset,
    l103-107, l133-137, l32-35 *)
Definition anchor (path : list nat) (i : nat) (start off : nat) : insert_pos * nat :=
  match i with O => (AsFirstChild path, start) | S j => (After (path ++ [j]), off) end.

(** go, l84-149; [start] is the offset of the node, [off] the offset of the next old child, [i] its index.
    [last_lhs] is the child before it. *)
Fixpoint go (path : list nat) (start : nat) (l r : tree) (d : tree_diff) {struct l} : tree_diff :=
  match l, r with
  | TNode _ lch, TNode _ rch =>
      (fix loop (lch : list tree) (i off : nat) (rch : list tree) (d : tree_diff) {struct lch} : tree_diff :=
         match lch with
         | [] => let '(k, o) := anchor path i start off in push_rest k o rch d
         | e :: lch' =>
             let off' := off + length (elem_text e) in
             match rch with
             | [] => loop lch' (S i) off' [] (add_deletion (mkRange off off') d)
             | f :: rch' =>
                 if element_eq e f then loop lch' (S i) off' rch' d
                 else match look_ahead e rch' with
                      | Some (between, rest) =>
                          let '(k, o) := anchor path i start off in
                          loop lch' (S i) off' rest (add_insertion k o (map elem_text (f :: between)) d)
                      | None => loop lch' (S i) off' rch' (go (path ++ [i]) off e f d)
                      end
             end
         end) lch 0 start rch d
  | _, _ => add_replacement (mkRange start (start + length (elem_text l))) (elem_text r) d
  end.
(** tree_diff, l57-69 *)
Definition diff_trees (start : nat) (from to : tree) : tree_diff := if element_eq from to then no_diff else go [] start from to no_diff.

(** TreeDiff::into_text_edit, l30-44; [rs] is the map of replacements in the order of iteration *)
Definition insertion_changes (l : list (insert_pos * (nat * list text))) : list change :=
  flat_map (fun '(_, (o, ts)) => map (insert_change o) ts) l.
Definition into_changes (rs : list (range * text)) (d : tree_diff) : list change :=
  insertion_changes (d_insertions d) ++ map (fun '(r, t) => replace_change r t) rs ++ map delete_change (d_deletions d).
(** source_change.rs:182-184: a fresh builder, all changes, finish *)
Definition diff_edit (rs : list (range * text)) (d : tree_diff) : res (list change) := build_edit (into_changes rs d).
