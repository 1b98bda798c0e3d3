(** Model of the labels of loops: which loops a label may mean, what it resolves to and what is offered for it.

    Source: crates/lang/src/nameres/labels.rs, crates/lang/src/nameres.rs:38-67, crates/syntax/src/ast/node_ext/loop_label.rs,
    crates/ide-completion/src/completions/reference/labels.rs, completions/reference/paths.rs:326-329.

    Simplified: an element is its path of indices from the root of the file; an entry is the path of the loop that has the declaration, with the name.
    That an entry is always visible (scope.rs:179-184, is_visible.rs:44-51) is built in. *)
From Coq Require Import String.
From Verif Require Import Base SyntaxKind TreeSinkModel AddressModel FixModel OutlineModel InlayModel.
Open Scope list_scope.

Definition path := list nat.
(** SyntaxElement::ancestors: the innermost first; a node is its own ancestor, a token is not *)
Fixpoint above (here : path) (t : tree) (p : path) : list (path * tree) :=
  match p with
  | [] => match t with TNode _ _ => [(here, t)] | TTok _ _ => [] end
  | i :: r => match t with
              | TNode _ ch => match nth_error ch i with Some c => above (here ++ [i]) c r | None => [] end ++ [(here, t)]
              | TTok _ _ => []
              end
  end.
(** is_label_barrier, labels.rs:57-62 *)
Definition is_label_barrier (k : kind) : bool := match k with LAMBDA_EXPR | FUN | SPEC_FUN | SPEC_INLINE_FUN | LEMMA | CONST => true | _ => false end.
(** LoopLike::can_cast, syntax/src/ast/generated/nodes.rs:8115 *)
Definition is_loop (k : kind) : bool := match k with FOR_EXPR | LOOP_EXPR | WHILE_EXPR => true | _ => false end.
Definition tkind (t : tree) : kind := match t with TNode k _ => k | TTok k _ => k end.
(** loop_ancestors, labels.rs:16-27, of a list of ancestors *)
Fixpoint loops_of (l : list (path * tree)) : list (path * tree) :=
  match l with
  | [] => []
  | a :: r => if is_label_barrier (tkind (snd a)) then [] else if is_loop (tkind (snd a)) then a :: loops_of r else loops_of r
  end.
Definition loop_ancestors (root : tree) (p : path) : list (path * tree) := loops_of (above [] root p).
(** support::child for a LABEL_DECL, syntax/src/ast.rs:156-158 *)
Fixpoint label_decl_in (l : list tree) : option (list tree) :=
  match l with
  | [] => None
  | TNode LABEL_DECL ch :: _ => Some ch
  | _ :: r => label_decl_in r
  end.
Definition label_decl (t : tree) : option (list tree) := match t with TNode _ ch => label_decl_in ch | TTok _ _ => None end.
(** quote_ident_token, nodes.rs:917-920, 931-934, with name_as_string, loop_label.rs:9-19.  None: a panic *)
Fixpoint quote_ident (l : list tree) : option text :=
  match l with
  | [] => None
  | TTok QUOTE_IDENT x :: _ => Some x
  | _ :: r => quote_ident r
  end.
(** get_loop_labels_resolve_variants, labels.rs:30-42.  None: a panic *)
Fixpoint entries_of (l : list (path * tree)) : option (list (path * text)) :=
  match l with
  | [] => Some []
  | a :: r => match label_decl (snd a) with
              | None => entries_of r
              | Some d => match quote_ident d with None => None | Some x => option_map (cons (fst a, x)) (entries_of r) end
              end
  end.
Definition label_entries (root : tree) (p : path) : option (list (path * text)) := entries_of (loop_ancestors root p).
Fixpoint node_at (t : tree) (p : path) : option tree :=
  match p with
  | [] => Some t
  | i :: r => match t with TNode _ ch => match nth_error ch i with Some c => node_at c r | None => None end | TTok _ _ => None end
  end.
(** single_or_none, scope.rs:129-131 *)
Definition single_or_none {A} (l : list A) : option A := match l with [a] => Some a | _ => None end.
(** resolve of a label, nameres.rs:38-67.  None: a panic, or there is no label at the path *)
Definition resolve_label (root : tree) (p : path) : option (option (path * text)) :=
  match node_at root p with
  | Some (TNode LABEL ch) =>
      match quote_ident ch with
      | None => None
      | Some x => option_map (fun l => single_or_none (filter (fun e => text_eqb (snd e) x) l)) (label_entries root p)
      end
  | _ => None
  end.
(** add_label_completions, completions/reference/labels.rs:16-37: the names offered, in order *)
Definition label_completions (root : tree) (p : path) : option (list text) := option_map (map snd) (label_entries root p).
(** paths.rs:326-329: whether continue and break are offered *)
Definition offers_break (root : tree) (p : path) : bool := match loop_ancestors root p with [] => false | _ => true end.
