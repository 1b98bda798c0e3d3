(** crates/aptos-language-server/src/lsp/utils.rs:247-276 [all_edits_are_disjoint] *)
From Verif Require Import Base.
Local Open Scope N_scope.

(** lsp_types::Position with its derived (lexicographic) order, lsp_types::Range *)
Definition position := (N * N)%type.
Definition pos_leb (p q : position) : bool :=
  (fst p <? fst q) || ((fst p =? fst q) && (snd p <=? snd q)).
Definition pos_eqb (p q : position) : bool := (fst p =? fst q) && (snd p =? snd q).
Record lsp_range := mkLspRange { r_start : position; r_end : position }.

(** lsp_types::CompletionItemTextEdit *)
Inductive item_edit :=
| PlainEdit (r : lsp_range)
| InsertReplace (insert replace : lsp_range).

(** order of the sort key (range.start, range.end) *)
Definition key_leb (a b : lsp_range) : bool :=
  (pos_leb (r_start a) (r_start b) && negb (pos_eqb (r_start a) (r_start b))) ||
  (pos_eqb (r_start a) (r_start b) && pos_leb (r_end a) (r_end b)).

(** [sort_by_key] (stable); modelled by insertion, see TextEditModel. *)
Fixpoint insert_range (x : lsp_range) (l : list lsp_range) : list lsp_range :=
  match l with
  | [] => [x]
  | y :: l' => if key_leb x y then x :: l else y :: insert_range x l'
  end.
Definition sort_ranges (l : list lsp_range) : list lsp_range := fold_right insert_range [] l.

(** [zip(skip(1)).all(|(previous, next)| previous.end <= next.start)] *)
Fixpoint adjacent_ok (l : list lsp_range) : bool :=
  match l with
  | a :: ((b :: _) as l') => pos_leb (r_end a) (r_start b) && adjacent_ok l'
  | _ => true
  end.

(** utils.rs:247-276 *)
Definition all_edits_are_disjoint (text_edit : option item_edit) (item_additional : option (list lsp_range))
  (additional : list lsp_range) : bool :=
  let rest := match item_additional with Some l => l | None => [] end ++ additional in
  let check l := adjacent_ok (sort_ranges l) in
  match text_edit with
  | None => check rest
  | Some (PlainEdit r) => check (r :: rest)
  | Some (InsertReplace insert replace) =>
      if negb (pos_eqb (r_start replace) (r_start insert)) ||
         negb (pos_leb (r_start insert) (r_end insert)) ||
         negb (pos_leb (r_end insert) (r_end replace))
      then false
      else check (replace :: rest)
  end.
