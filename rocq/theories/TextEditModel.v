(** Model of crates/ide-db/src/text_edit.rs *)
From Verif Require Import Base.

(** [TextRange] (crate text-size): a pair of byte offsets; [TextRange::new] asserts start <= end. *)
Record range := mkRange { r_start : nat; r_end : nat }.
Definition r_len (r : range) : nat := r_end r - r_start r.
Definition r_is_empty (r : range) : bool := r_start r =? r_end r.

(** text_edit.rs:15-19 [TextChange] *)
Record change := mkChange { c_range : range; c_text : text }.
Definition c_start (c : change) := r_start (c_range c).
Definition c_end (c : change) := r_end (c_range c).

(** text_edit.rs:33-44 constructors *)
Definition replace_change (r : range) (t : text) : change := mkChange r t.
Definition delete_change (r : range) : change := mkChange r [].
Definition insert_change (o : nat) (t : text) : change := mkChange (mkRange o o) t.

(** [String::replace_range] (Rust std): panics unless both ends are char boundaries (so in bounds)
    and start <= end. *)
Definition replace_range (t : text) (s e : nat) (new : text) : res text :=
  if is_char_boundary t s && is_char_boundary t e && (s <=? e)
  then Ok (firstn s t ++ new ++ skipn e t)
  else Panic.

(** text_edit.rs:53-57 [TextChange::apply] *)
Definition change_apply (c : change) (t : text) : res text :=
  replace_range t (c_start c) (c_end c) (c_text c).

(** text_edit.rs:109-113: the running total length; [-=] on an unsigned size panics on underflow
    (debug build). The reserve computation (l.108,112,114-116) only affects capacity: omitted. *)
Fixpoint total_len (acc : nat) (cs : list change) : res nat :=
  match cs with
  | [] => Ok acc
  | c :: cs' =>
      let acc1 := acc + length (c_text c) in
      if r_len (c_range c) <=? acc1 then total_len (acc1 - r_len (c_range c)) cs' else Panic
  end.

(** text_edit.rs:118-120: [for text_change in self.changes.iter().rev() { text_change.apply(text) }];
    the argument is the list in iteration order. *)
Fixpoint apply_in_order (cs : list change) (t : text) : res text :=
  match cs with
  | [] => Ok t
  | c :: cs' => bind (change_apply c t) (apply_in_order cs')
  end.

(** text_edit.rs:95-123 [TextEdit::apply]; an edit is its list of changes. *)
Definition edit_apply (cs : list change) (t : text) : res text :=
  match cs with
  | [] => Ok t
  | [c] => change_apply c t
  | _ =>
      bind (total_len (length t) cs) (fun total =>
      bind (apply_in_order (rev cs) t) (fun out =>
      if length out =? total then Ok out else Panic))
  end.

(** Derived equality of [TextChange] (l.14 derive PartialEq). *)
Fixpoint text_eqb (a b : text) : bool :=
  match a, b with
  | [], [] => true
  | x :: a', y :: b' => N.eqb x y && text_eqb a' b'
  | _, _ => false
  end.
Definition range_eqb (a b : range) : bool :=
  (r_start a =? r_start b) && (r_end a =? r_end b).
Definition change_eqb (a b : change) : bool :=
  range_eqb (c_range a) (c_range b) && text_eqb (c_text a) (c_text b).

(** text_edit.rs:212 sort key (start, end), compared lexicographically. *)
Definition key_leb (a b : change) : bool :=
  (c_start a <? c_start b) || ((c_start a =? c_start b) && (c_end a <=? c_end b)).

(** [slice::sort_by_key] is a stable sort: insertion sort placing an element after all elements of
    the already sorted prefix with an equal key. Here elements are inserted from the right, so an
    element goes before equal ones that come later in the input: stable. *)
Fixpoint insert_sorted (c : change) (l : list change) : list change :=
  match l with
  | [] => [c]
  | d :: l' => if key_leb c d then c :: d :: l' else d :: insert_sorted c l'
  end.
Fixpoint sort_changes (l : list change) : list change :=
  match l with
  | [] => []
  | c :: l' => insert_sorted c (sort_changes l')
  end.

(** text_edit.rs:216-224 [check_disjoint]: every adjacent pair is disjoint or equal. *)
Fixpoint check_disjoint (l : list change) : bool :=
  match l with
  | a :: ((b :: _) as l') => ((c_end a <=? c_start b) || change_eqb a b) && check_disjoint l'
  | _ => true
  end.

(** text_edit.rs:226-239 [coalesce_text_changes] (itertools [coalesce]: keeps a current element,
    merges the next into it or emits it). *)
Fixpoint coalesce_from (cur : change) (l : list change) : list change :=
  match l with
  | [] => [cur]
  | b :: l' =>
      if c_end cur =? c_start b
      then coalesce_from (mkChange (mkRange (c_start cur) (c_end b)) (c_text cur ++ c_text b)) l'
      else cur :: coalesce_from b l'
  end.
Definition coalesce (l : list change) : list change :=
  match l with
  | [] => []
  | c :: l' => coalesce_from c l'
  end.

(** text_edit.rs:199-204 [TextEditBuilder::add_change]; the builder is its vector of changes.
    The assert sorts the vector in place. *)
Definition add_change (b : list change) (c : change) : res (list change) :=
  let b1 := b ++ [c] in
  if length b1 <=? 16
  then (let s := sort_changes b1 in if check_disjoint s then Ok s else Panic)
  else Ok b1.

Fixpoint add_changes (b : list change) (cs : list change) : res (list change) :=
  match cs with
  | [] => Ok b
  | c :: cs' => bind (add_change b c) (fun b' => add_changes b' cs')
  end.

(** text_edit.rs:188-193 [TextEditBuilder::finish] *)
Definition finish (b : list change) : res (list change) :=
  let s := sort_changes b in
  if check_disjoint s then Ok (coalesce s) else Panic.

(** A whole use of the builder: [TextEdit::builder()], the additions in order, [finish]. *)
Definition build_edit (cs : list change) : res (list change) :=
  bind (add_changes [] cs) finish.

(** itertools [merge_by(pred)]: takes from the left iterator when [pred l r]. *)
Fixpoint merge_by_start (l : list change) : list change -> list change :=
  fix aux (r : list change) : list change :=
    match l, r with
    | [], _ => r
    | _, [] => l
    | a :: l', b :: r' =>
        if c_start a <=? c_start b then a :: merge_by_start l' r else b :: aux r'
    end.

(** text_edit.rs:135 itertools [dedup_by(|a, b| a == b && !a.range.is_empty())]: drops an element
    equal to the last one kept. *)
Fixpoint dedup_from (cur : change) (l : list change) : list change :=
  match l with
  | [] => [cur]
  | b :: l' =>
      if change_eqb cur b && negb (r_is_empty (c_range cur))
      then dedup_from cur l'
      else cur :: dedup_from b l'
  end.
Definition dedup (l : list change) : list change :=
  match l with
  | [] => []
  | c :: l' => dedup_from c l'
  end.

(** text_edit.rs:125-139 [TextEdit::union]: returns the new receiver and whether it succeeded. *)
Definition union (self other : list change) : list change * bool :=
  let m := merge_by_start self other in
  if check_disjoint m then (dedup m, true) else (self, false).

(** text_edit.rs:141-154 [TextEdit::apply_to_offset]; [res -= len] panics on underflow. *)
Fixpoint apply_to_offset_from (cs : list change) (offset acc : nat) : res (option nat) :=
  match cs with
  | [] => Ok (Some acc)
  | c :: cs' =>
      if offset <=? c_start c then Ok (Some acc)
      else if offset <? c_end c then Ok None
      else
        let acc1 := acc + length (c_text c) in
        if r_len (c_range c) <=? acc1
        then apply_to_offset_from cs' offset (acc1 - r_len (c_range c))
        else Panic
  end.
Definition apply_to_offset (cs : list change) (offset : nat) : res (option nat) :=
  apply_to_offset_from cs offset offset.
