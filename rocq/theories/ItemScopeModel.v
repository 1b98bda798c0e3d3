(** Model of the computation of item scopes (main, test-only, verify-only).

    Source: crates/lang/src/item_scope.rs, crates/lang/src/hir_db.rs:297-303 (item_scope).

    Simplified: a node is identified by its path from the root instead of its SyntaxNodePtr (kind and text
    range); the two differ only for nodes of one kind with one range, which the grammar does not nest.
    What ast::AnyHasAttrs::cast and attr_items() deliver (the paths of a node's attributes; none for nodes
    that cannot carry attributes) is part of the node. *)
From Coq Require Import String.
From Verif Require Import Base SyntaxKind AddressModel.
Local Open Scope string_scope.
Local Open Scope list_scope. Local Open Scope nat_scope.

(** item_scope.rs:14-18 *)
Inductive item_scope := ScMain | ScTest | ScVerify.
Definition scope_eqb (a b : item_scope) : bool :=
  match a, b with ScMain, ScMain | ScTest, ScTest | ScVerify, ScVerify => true | _, _ => false end.
(** is_test, l36-38; is_covered_by_the_use_stmt_scope, l40-48; shrink_scope, l50-55 *)
Definition is_test (s : item_scope) : bool := scope_eqb s ScTest.
Definition covered_by_use (s u : item_scope) : bool :=
  match s with
  | ScTest => scope_eqb u ScTest
  | ScMain => scope_eqb u ScMain
  | ScVerify => scope_eqb u ScMain || scope_eqb u ScVerify
  end.
Definition shrink_scope (s adj : item_scope) : item_scope := if scope_eqb s ScMain then adj else s.

(** a syntax tree: kind, attribute paths, children; tokens carry nothing of interest *)
Inductive stree := SNode (k : kind) (attrs : list text) (ch : list stree) | STok.
Definition path := list nat.     (* child indices, innermost first *)

(** item_scope_from_attributes, l115-131 *)
Definition contains_text (x : text) (l : list text) : bool := existsb (text_eqb x) l.
Definition scope_from_attrs (attrs : list text) : option item_scope :=
  match attrs with
  | [] => None
  | _ => if contains_text (str "test_only") attrs || contains_text (str "test") attrs then Some ScTest
         else if contains_text (str "verify_only") attrs then Some ScVerify else None
  end.
(** node_item_scope, l97-113 *)
Definition spec_kind (k : kind) : bool :=
  match k with SCHEMA | SPEC_FUN | SPEC_INLINE_FUN | ITEM_SPEC | MODULE_SPEC | SPEC_BLOCK_EXPR | LEMMA => true | _ => false end.
Definition node_item_scope (k : kind) (attrs : list text) : item_scope :=
  if spec_kind k then ScVerify
  else match scope_from_attrs attrs with
       | Some s => if negb (scope_eqb s ScMain) then s else ScMain
       | None => ScMain
       end.

(** preorder_with_tokens: enter and leave events of the nodes *)
Inductive wev := WEnter (p : path) (k : kind) (attrs : list text) | WLeave (p : path).
Fixpoint walk (p : path) (t : stree) {struct t} : list wev :=
  match t with
  | STok => []
  | SNode k a ch =>
      WEnter p k a ::
      (fix go (i : nat) (l : list stree) {struct l} : list wev := match l with [] => [] | c :: r => walk (i :: p) c ++ go (S i) r end) 0 ch ++
      [WLeave p]
  end.

Fixpoint path_eqb (a b : path) : bool := match a, b with [], [] => true | x :: a', y :: b' => (x =? y) && path_eqb a' b' | _, _ => false end.
(** the map, newest binding first, and the stack [scope_nodes], top first *)
Definition walk_state : Type := list (path * item_scope) * list (path * item_scope).
(** the loop body, l68-93 *)
Definition walk_step (st : walk_state) (e : wev) : walk_state :=
  let '(map, stack) := st in
  match e with
  | WEnter p k a =>
      match node_item_scope k a with
      | ScMain => ((p, match stack with (_, s) :: _ => s | [] => ScMain end) :: map, stack)
      | s => ((p, s) :: map, (p, s) :: stack)
      end
  | WLeave p =>
      match stack with
      | (q, _) :: rest => if path_eqb q p then (map, rest) else (map, stack)
      | [] => (map, stack)
      end
  end.
Definition item_scopes (t : stree) : list (path * item_scope) := fst (fold_left walk_step (walk [] t) ([], [])).
(** HashMap::get and hir_db::item_scope *)
Fixpoint lookup (p : path) (m : list (path * item_scope)) : option item_scope :=
  match m with [] => None | (q, s) :: r => if path_eqb p q then Some s else lookup p r end.
Definition item_scope_at (t : stree) (p : path) : item_scope := match lookup p (item_scopes t) with Some s => s | None => ScMain end.
