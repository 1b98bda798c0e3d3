(** Model of the syntax tree editor behind the quick fixes: crates/syntax/src/syntax_editor.rs and
    crates/syntax/src/syntax_editor/edit_algo.rs, and of the deletion of use items built on it
    (crates/syntax/src/syntax_editor/node_ext/use_speck.rs, use_stmt.rs).

    An element of the edited tree is named by its path from the root.  The mutable copy of the tree
    (rowan's [clone_for_update]) is a tree whose elements carry the path they had, so that a handle to an
    element stays valid while other changes are made; inserted elements carry no path.  Elements that have
    been cut out stay alive as separate trees, as their handles do in rowan.

    Not modelled: the mapping of changes made inside a replaced element ([SyntaxMapping::upmap_child]); a
    batch that needs it has the outcome [Remapped], together with the pairs of changes concerned. Inserted
    elements are assumed to be detached trees of their own. *)
From Verif Require Import Base SyntaxKind TextEditModel ParserModel TreeSinkModel TreeDiffModel.
Close Scope N_scope.
Open Scope nat_scope.

Definition place_path := list nat.
(** the element at a path *)
Fixpoint element_at (t : tree) (p : place_path) : option tree :=
  match p with
  | [] => Some t
  | i :: p' => match t with
               | TNode _ ch => match nth_error ch i with Some c => element_at c p' | None => None end
               | TTok _ _ => None
               end
  end.
(** its offset, [text_range().start()] *)
Fixpoint offset_at (t : tree) (p : place_path) : nat :=
  match p with
  | [] => 0
  | i :: p' => match t with
               | TNode _ ch => length (flat_map elem_text (firstn i ch)) + match nth_error ch i with Some c => offset_at c p' | None => 0 end
               | TTok _ _ => 0
               end
  end.
Definition text_at (t : tree) (p : place_path) : text := match element_at t p with Some e => elem_text e | None => [] end.
(** [text_range()] *)
Definition range_at (t : tree) (p : place_path) : range := mkRange (offset_at t p) (offset_at t p + length (text_at t p)).
Definition parent (p : place_path) : place_path := removelast p.
Definition is_node_at (t : tree) (p : place_path) : bool := match element_at t p with Some (TNode _ _) => true | _ => false end.

(** syntax_editor.rs:188-191 PositionRepr *)
Inductive place := FirstChild (p : place_path) | AfterElement (p : place_path).
(** syntax_editor.rs:225-238 Change *)
Inductive change :=
| Insert (at_ : place) (new : tree)
| InsertAll (at_ : place) (new : list tree)
| Replace (target : place_path) (new : option tree)
| ReplaceWithMany (target : place_path) (new : list tree)
| ReplaceAll (first last : place_path) (new : list tree).

(** Change::target_range, syntax_editor.rs:241-253 *)
Definition place_offset (t : tree) (a : place) : nat :=
  match a with FirstChild p => offset_at t p | AfterElement p => r_end (range_at t p) end.
Definition target_range (t : tree) (c : change) : range :=
  match c with
  | Insert a _ | InsertAll a _ => mkRange (place_offset t a) (place_offset t a)
  | Replace p _ | ReplaceWithMany p _ => range_at t p
  | ReplaceAll p q _ => mkRange (Nat.min (r_start (range_at t p)) (r_start (range_at t q))) (Nat.max (r_end (range_at t p)) (r_end (range_at t q)))
  end.
(** Position::place, syntax_editor.rs:179-184; Change::target_parent, l255-264 *)
Definition place_parent (a : place) : place_path := match a with FirstChild p => p | AfterElement p => parent p end.
Definition target_parent (c : change) : place_path :=
  match c with
  | Insert a _ | InsertAll a _ => place_parent a
  | Replace p _ | ReplaceWithMany p _ => parent p
  | ReplaceAll p _ _ => parent p
  end.
(** Change::change_kind, l266-272, with the order of ChangeKind, l275-280 *)
Definition change_rank (c : change) : nat :=
  match c with Insert _ _ | InsertAll _ _ => 0 | ReplaceAll _ _ _ => 1 | Replace _ _ | ReplaceWithMany _ _ => 2 end.
(** the unwraps of target_range and target_parent: a first child is asked of a node without children, the
    parent of the root.  (A single change is not compared with others, so its range is not asked for.) *)
Definition target_panics (t : tree) (c : change) : bool :=
  match c with
  | Insert (FirstChild p) _ | InsertAll (FirstChild p) _ => match element_at t p with Some (TNode _ (_ :: _)) => false | _ => true end
  | Insert (AfterElement p) _ | InsertAll (AfterElement p) _ => match p with [] => true | _ => false end
  | Replace _ _ | ReplaceWithMany _ _ => false
  | ReplaceAll p _ _ => match p with [] => true | _ => false end
  end.

(** node.ancestors().count(), edit_algo.rs:41-46 *)
Definition depth (p : place_path) : nat := S (length p).
(** the order of the changes, edit_algo.rs:52-67 *)
Definition before (t : tree) (a b : change) : bool :=
  let sa := r_start (target_range t a) in let sb := r_start (target_range t b) in
  let da := depth (target_parent a) in let db := depth (target_parent b) in
  (sa <? sb) || ((sa =? sb) && ((da <? db) || ((da =? db) && (change_rank a <=? change_rank b)))).
(** Vec::sort_by is stable *)
Fixpoint put (t : tree) (c : change) (l : list change) : list change :=
  match l with [] => [c] | d :: r => if before t c d then c :: l else d :: put t c r end.
Fixpoint sorted_changes (t : tree) (l : list change) : list change :=
  match l with [] => [] | c :: r => put t c (sorted_changes t r) end.
(** disjoint_replaces_ranges, edit_algo.rs:69-85 *)
Definition replaces (c : change) : bool := negb (change_rank c =? 0).
Fixpoint disjoint_replaces (t : tree) (l : list change) : bool :=
  match l with
  | a :: ((b :: _) as r) =>
      (negb (replaces a && replaces b) || negb (depth (target_parent a) =? depth (target_parent b)) ||
       (r_end (target_range t a) <=? r_start (target_range t b))) && disjoint_replaces t r
  | _ => true
  end.

(** the range of a change that later changes may depend on, edit_algo.rs:134-144 and ChangedAncestor, l303-340 *)
Definition ancestor_range (t : tree) (c : change) : option range :=
  match c with
  | Replace p _ | ReplaceWithMany p _ => if is_node_at t p then Some (range_at t p) else None
  | ReplaceAll p q _ => Some (mkRange (r_start (range_at t p)) (r_end (range_at t q)))
  | _ => None
  end.
Definition contains_range (a b : range) : bool := (r_start a <=? r_start b) && (r_end b <=? r_end a).
Fixpoint position {A} (f : A -> bool) (l : list A) : option nat :=
  match l with [] => None | x :: r => if f x then Some 0 else option_map S (position f r) end.
(** the change tree, edit_algo.rs:105-145: the pairs of a change and the one it depends on.  The position is
    counted from the end of the deque and used as an index from its start. *)
Fixpoint dependent_changes (t : tree) (i : nat) (l : list change) (anc : list (range * nat)) : list (nat * nat) :=
  match l with
  | [] => []
  | c :: r =>
      let push anc := anc ++ match ancestor_range t c with Some x => [(x, i)] | None => [] end in
      match position (fun a => contains_range (fst a) (target_range t c)) (rev anc) with
      | Some k => (snd (nth k anc (mkRange 0 0, 0)), i) :: dependent_changes t (S i) r (push (firstn (S k) anc))
      | None => dependent_changes t (S i) r (push [])
      end
  end.
(** a change depends on a deletion or on a replacement by several elements, edit_algo.rs:194-198: the first
    kind is left on the tree that cannot be changed, the second is unimplemented *)
Definition cannot_carry (c : change) : bool := match c with Replace _ (Some _) => false | _ => true end.

(** * The mutable tree *)
Inductive mtree := MNode (l : option place_path) (k : kind) (ch : list mtree) | MTok (l : option place_path) (k : kind) (x : text).
Definition label (m : mtree) : option place_path := match m with MNode l _ _ => l | MTok l _ _ => l end.
(** clone_for_update *)
Fixpoint labelled (p : place_path) (t : tree) : mtree :=
  match t with
  | TNode k ch => MNode (Some p) k ((fix go (i : nat) (ch : list tree) : list mtree :=
                                       match ch with [] => [] | c :: r => labelled (p ++ [i]) c :: go (S i) r end) 0 ch)
  | TTok k x => MTok (Some p) k x
  end.
Fixpoint fresh (t : tree) : mtree := match t with TNode k ch => MNode None k (map fresh ch) | TTok k x => MTok None k x end.
Fixpoint erase (m : mtree) : tree := match m with MNode _ k ch => TNode k (map erase ch) | MTok _ k x => TTok k x end.

(** SyntaxNodePtr::to_node, as used by TreeMutator, edit_algo.rs:352-370: the node is looked up in the copy by its
    kind and range, from the root down *)
Definition same_ptr (t : tree) (p q : place_path) : bool :=
  match element_at t p, element_at t q with
  | Some (TNode k _), Some (TNode k' _) => kind_eqb k k' && (offset_at t p =? offset_at t q) && (length (text_at t p) =? length (text_at t q))
  | _, _ => false
  end.
Fixpoint resolve_from (t : tree) (p : place_path) (done rest : place_path) : place_path :=
  if same_ptr t done p then done else match rest with [] => p | i :: r => resolve_from t p (done ++ [i]) r end.
Definition resolve_node (t : tree) (p : place_path) : place_path := resolve_from t p [] p.
(** make_element_mut; a token is found by its index in its parent *)
Definition resolve (t : tree) (p : place_path) : place_path :=
  if is_node_at t p then resolve_node t p else resolve_node t (parent p) ++ [last p 0].
Definition resolve_place (t : tree) (a : place) : place := match a with FirstChild p => FirstChild (resolve_node t p) | AfterElement p => AfterElement (resolve t p) end.
Definition resolve_change (t : tree) (c : change) : change :=
  match c with
  | Insert a e => Insert (resolve_place t a) e
  | InsertAll a es => InsertAll (resolve_place t a) es
  | Replace p e => Replace (resolve t p) e
  | ReplaceWithMany p es => ReplaceWithMany (resolve t p) es
  | ReplaceAll p q es => ReplaceAll (resolve t p) (resolve t q) es
  end.

Definition path_eqb (a b : place_path) : bool := if list_eq_dec Nat.eq_dec a b then true else false.
Definition has_label (p : place_path) (m : mtree) : bool := match label m with Some q => path_eqb p q | None => false end.
(** parent.splice_children(i..j, es) *)
Definition splice (i j : nat) (es ch : list mtree) : list mtree := firstn i ch ++ es ++ skipn (Nat.max i j) ch.
Definition cut (i j : nat) (ch : list mtree) : list mtree := firstn (j - i) (skipn i ch).
Definition index_in (p : place_path) (ch : list mtree) : nat := match position (has_label p) ch with Some i => i | None => 0 end.
(** the children lists that contain the element with a label are changed by [g] *)
Fixpoint at_parent (p : place_path) (g : list mtree -> list mtree) (m : mtree) : mtree :=
  match m with
  | MNode l k ch => MNode l k (if existsb (has_label p) ch then g ch else map (at_parent p g) ch)
  | MTok _ _ _ => m
  end.
Fixpoint at_node (p : place_path) (g : list mtree -> list mtree) (m : mtree) : mtree :=
  match m with
  | MNode l k ch => if has_label p m then MNode l k (g ch) else MNode l k (map (at_node p g) ch)
  | MTok _ _ _ => m
  end.
(** what [g] takes out of those lists *)
Fixpoint collect (p : place_path) (g : list mtree -> list mtree) (m : mtree) : list mtree :=
  match m with
  | MNode l k ch => if existsb (has_label p) ch then g ch else flat_map (collect p g) ch
  | MTok _ _ _ => []
  end.
(** the index of an element among its siblings *)
Fixpoint sibling_index (p : place_path) (m : mtree) : option nat :=
  match m with
  | MNode l k ch => if existsb (has_label p) ch then Some (index_in p ch) else fold_right (fun c a => match sibling_index p c with Some i => Some i | None => a end) None ch
  | MTok _ _ _ => None
  end.
Definition index_of (p : place_path) (f : list mtree) : nat :=
  fold_right (fun m a => match sibling_index p m with Some i => i | None => a end) 0 f.

(** the state: the root, and the trees cut out so far *)
Definition state := (mtree * list mtree)%type.
Definition on_all (f : mtree -> mtree) (s : state) : state := (f (fst s), map f (snd s)).
Definition is_top (p : place_path) (s : state) : bool := existsb (has_label p) (fst s :: snd s).
(** target.parent().unwrap() and splice_children over [i..j] computed from the list of siblings *)
Definition splice_at (p : place_path) (bounds : list mtree -> nat * nat) (es : list mtree) (s : state) : option state :=
  if is_top p s then None else
  let out := flat_map (collect p (fun ch => cut (fst (bounds ch)) (snd (bounds ch)) ch)) (fst s :: snd s) in
  let s' := on_all (at_parent p (fun ch => splice (fst (bounds ch)) (snd (bounds ch)) es ch)) s in
  Some (fst s', snd s' ++ out).
Definition own (p : place_path) (ch : list mtree) : nat * nat := (index_in p ch, S (index_in p ch)).
Definition just_after (p : place_path) (ch : list mtree) : nat * nat := (S (index_in p ch), S (index_in p ch)).
Definition insert_at (a : place) (es : list mtree) (s : state) : option state :=
  match a with
  | FirstChild p => Some (on_all (at_node p (fun ch => splice 0 0 es ch)) s)
  | AfterElement p => splice_at p (just_after p) es s
  end.
(** the loop over the changes, edit_algo.rs:249-282; [None] is a panic *)
Definition apply_change (c : change) (s : state) : option state :=
  match c with
  | Insert a e => insert_at a [fresh e] s
  | InsertAll a es => insert_at a (map fresh es) s
  | Replace p None => if is_top p s then Some s else splice_at p (own p) [] s
  | Replace p (Some e) =>
      if has_label p (fst s) then
        match e, fst s with
        | TNode _ _, MNode _ _ _ => Some (fresh e, snd s ++ [fst s])
        | _, _ => None
        end
      else splice_at p (own p) [fresh e] s
  | ReplaceWithMany p es => splice_at p (own p) (map fresh es) s
  | ReplaceAll p q es => splice_at p (fun ch => (index_in p ch, S (index_of q (fst s :: snd s)))) (map fresh es) s
  end.
Fixpoint apply_all (cs : list change) (s : state) : option state :=
  match cs with [] => Some s | c :: r => match apply_change c s with Some s' => apply_all r s' | None => None end end.

(** apply_edits, edit_algo.rs:20-289 *)
Inductive outcome :=
| Edited (new_root : tree)
| Conflict   (** [stdx::never!]: the tree is returned unchanged, l87-97 *)
| Panicked
| Remapped (pairs : list (nat * nat)).
Definition finish (t : tree) (changes : list change) : outcome :=
  if (1 <? length changes) && existsb (target_panics t) changes then Panicked else
  let cs := sorted_changes t changes in
  if negb (disjoint_replaces t cs) then Conflict else
  let deps := dependent_changes t 0 cs [] in
  match deps with
  | [] => match apply_all (map (resolve_change t) cs) (labelled [] t, []) with Some s => Edited (erase (fst s)) | None => Panicked end
  | _ => if existsb (fun d => cannot_carry (nth (fst d) cs (ReplaceAll [] [] []))) deps then Panicked else Remapped deps
  end.
(** the tree that the diff of source_change.rs:177-190 is computed against *)
Definition new_root (t : tree) (o : outcome) : option tree := match o with Edited t' => Some t' | Conflict => Some t | _ => None end.

(** * Deleting items of a use group *)
Definition children_at (t : tree) (g : place_path) : list tree := match element_at t g with Some (TNode _ ch) => ch | _ => [] end.
Definition kind_at_index (ch : list tree) (i : nat) : option kind := option_map tree_kind (nth_error ch i).
(** the siblings after / before index [i] while they are trivia, by index; next_siblings_with_tokens and
    prev_siblings_with_tokens, ast/node_ext/syntax_node.rs:67-73 *)
Fixpoint trivia_after (ch : list tree) (fuel i : nat) : list nat :=
  match fuel with
  | 0 => []
  | S f => match kind_at_index ch (S i) with Some k => if is_trivia k then S i :: trivia_after ch f (S i) else [] | None => [] end
  end.
Fixpoint trivia_before (ch : list tree) (i : nat) : list nat :=
  match i with
  | 0 => []
  | S j => match kind_at_index ch j with Some k => if is_trivia k then j :: trivia_before ch j else [] | None => [] end
  end.
(** next_sibling_or_token_no_trivia, prev_sibling_or_token_no_trivia, following_comma, preceding_comma, following_ws,
    ast/node_ext/syntax_element.rs:16-34, 67-93 *)
Definition next_index (ch : list tree) (i : nat) : nat := S i + length (trivia_after ch (length ch) i).
Definition following_comma (ch : list tree) (i : nat) : option nat :=
  match kind_at_index ch (next_index ch i) with Some COMMA => Some (next_index ch i) | _ => None end.
Definition prev_index (ch : list tree) (i : nat) : option nat :=
  match i - length (trivia_before ch i) with 0 => None | S j => Some j end.
Definition preceding_comma (ch : list tree) (i : nat) : option nat :=
  match prev_index ch i with
  | Some j => match kind_at_index ch j with Some COMMA => Some j | _ => None end
  | None => None
  end.
Definition following_ws (ch : list tree) (i : nat) : option nat := match kind_at_index ch (S i) with Some WHITESPACE => Some (S i) | _ => None end.
Definition delete_at (g : place_path) (i : nat) : change := Replace (g ++ [i]) None.
(** SyntaxEditor::delete_comma_sep_list_element, syntax_editor.rs:77-97 *)
Definition comma_sep_deletions (ch : list tree) (i : nat) : list nat :=
  trivia_after ch (length ch) i ++ trivia_before ch i ++
  match following_comma ch i with
  | Some c => [c]
  | None => match preceding_comma ch i with Some c => [c] | None => [] end
  end ++ [i].
(** UseGroup::use_specks: the children that are use specks *)
Definition speck_indices (ch : list tree) : list nat := filter (fun i => match nth_error ch i with Some (TNode USE_SPECK _) => true | _ => false end) (seq 0 (length ch)).
(** UseSpeck::delete, node_ext/use_speck.rs:10-24 *)
Definition use_speck_deletions (ch : list tree) (i : nat) : list nat :=
  match speck_indices ch with
  | f :: _ => if f =? i then match following_comma ch i with Some c => match following_ws ch c with Some w => [w] | None => [] end | None => [] end else []
  | [] => []
  end ++ comma_sep_deletions ch i.
(** UseStmt::delete_group_use_specks, node_ext/use_stmt.rs:91-112, for the group at path [g]; when one item is left the whole
    use speck is rebuilt by the (unmodelled) factory as [rebuilt] *)
Definition delete_group_use_specks (t : tree) (g : place_path) (unused : list nat) (rebuilt : nat -> tree) : list change :=
  let ch := children_at t g in
  match filter (fun i => negb (existsb (Nat.eqb i) unused)) (speck_indices ch) with
  | [only] => [Replace (parent g) (Some (rebuilt only))]
  | _ => map (delete_at g) (flat_map (use_speck_deletions ch) unused)
  end.
