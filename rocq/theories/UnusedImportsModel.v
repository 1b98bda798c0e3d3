(** Model of the detection of unused imports and of imports needed by tests only.

    Source: crates/ide-diagnostics/src/handlers/unused_import.rs:22-157, unused_import/use_items.rs,
    unused_import/organize_imports.rs:46-92, reduced_scope_import.rs, crates/lang/src/hir_db/use_items_ext.rs,
    crates/lang/src/nameres/use_speck_entries.rs:50-205 and the part of path_kind (path_kind.rs:96-255) that
    applies to the path of a use statement.

    Simplified: scopes that hold use statements (modules, module specs, scripts, blocks) are numbers; a use
    statement is given by its position in its scope and an imported name by its position in the statement,
    which stand for their SyntaxLoc.  Everything the code reads from the tree and from other queries is data
    of a [world]: the use statements of a scope, the module specs of a module and the module of a module
    spec, the named addresses, and every path outside use statements with the scopes around it.  The
    messages, ranges and edits of the diagnostics are left out (the edits are in EditorModel.v). *)
From Coq Require Import String.
From Verif Require Import Base AddressModel ItemScopeModel.
Close Scope string_scope. Close Scope N_scope. Open Scope nat_scope. Open Scope list_scope.

(** ast::PathSegment: a name, a value address, or neither (after a syntax error) *)
Inductive seg := SName (x : text) | SAddr | SNone.
(** ast::Path, last segment first: [foo; m; 0x1] is 0x1::m::foo.  [tl] is the qualifier *)
Definition upath := list seg.
(** reference_name, node_ext/path.rs:19-21 *)
Definition reference_name (p : upath) : option text := match p with SName x :: _ => Some x | _ => None end.
(** path_address().is_some(), path.rs:11-13 *)
Definition is_address (p : upath) : bool := match p with SAddr :: _ => true | _ => false end.

(** ast::UseSpeck and ast::UseStmt; an alias without a name counts as none *)
Record child_speck := mkChild { cs_path : option upath; cs_alias : option text }.
Record speck := mkSpeck { sp_path : option upath; sp_alias : option text; sp_group : option (list child_speck) }.
Record use_stmt := mkStmt { st_scope : item_scope; st_speck : option speck }.

(** UseItemType and UseItem, use_speck_entries.rs:50-62; the location: scope, statement, child *)
Inductive item_type := TModule | TSelf | TItem.
Record loc := mkLoc { l_owner : nat; l_stmt : nat; l_child : option nat }.
Record use_item := mkUse { u_loc : loc; u_name : text; u_type : item_type; u_scope : item_scope }.
Definition item_type_eqb (a b : item_type) : bool :=
  match a, b with TModule, TModule | TSelf, TSelf | TItem, TItem => true | _, _ => false end.
Definition loc_eqb (a b : loc) : bool :=
  (l_owner a =? l_owner b) && (l_stmt a =? l_stmt b) &&
  match l_child a, l_child b with Some x, Some y => x =? y | None, None => true | _, _ => false end.
(** derived Eq of UseItem *)
Definition use_eqb (a b : use_item) : bool :=
  loc_eqb (u_loc a) (u_loc b) && text_eqb (u_name a) (u_name b) && item_type_eqb (u_type a) (u_type b) && scope_eqb (u_scope a) (u_scope b).

(** path_kind for the path of the root use speck, path_kind.rs:117-136 (one element), 163-195 (two), 230-237
    (three and more) *)
Inductive speck_kind := KAddress | KModule | KItem.
Definition speck_path_kind (p : upath) : option speck_kind :=
  match p with
  | [] => None
  | [_] => if is_address p then Some KAddress else match reference_name p with Some _ => Some KAddress | None => None end
  | [_; q] => match q with SAddr | SName _ => Some KModule | SNone => None end
  | _ => Some KItem
  end.
Definition SELF : text := str "Self".
Definition or_else (a : option text) (x : text) : text := match a with Some y => y | None => x end.
(** collect_child_use_speck, use_speck_entries.rs:149-205 *)
Definition child_item (root : speck) (at_ : loc) (sc : item_scope) (c : child_speck) : option use_item :=
  match sp_path root with
  | None => None
  | Some q =>
      match reference_name q, match cs_path c with Some p => reference_name p | None => None end with
      | Some module_name, Some name =>
          if text_eqb name SELF then Some (mkUse at_ (or_else (cs_alias c) module_name) TSelf sc)
          else match speck_path_kind q with
               | Some KModule | Some KItem => Some (mkUse at_ (or_else (cs_alias c) name) TItem sc)
               | _ => None
               end
      | _, _ => None
      end
  end.
Fixpoint group_items (root : speck) (o i : nat) (sc : item_scope) (j : nat) (l : list child_speck) : list use_item :=
  match l with
  | [] => []
  | c :: r => match child_item root (mkLoc o i (Some j)) sc c with Some u => [u] | None => [] end ++ group_items root o i sc (S j) r
  end.
(** use_items_for_stmt, use_speck_entries.rs:71-147: statement number [i] of scope [o] *)
Definition use_items_for_stmt (o i : nat) (s : use_stmt) : option (list use_item) :=
  match st_speck s with
  | None => None
  | Some root =>
      match sp_group root with
      | Some children => Some (group_items root o i (st_scope s) 0 children)
      | None =>
          match sp_path root with
          | None => None
          | Some p =>
              match reference_name p with
              | None => None
              | Some name =>
                  let at_ := mkLoc o i None in
                  match speck_path_kind p with
                  | None => None
                  | Some KAddress => Some []
                  | Some KModule => Some [mkUse at_ (or_else (sp_alias root) name) TModule (st_scope s)]
                  | Some KItem =>
                      match reference_name (tl p) with
                      | None => Some []
                      | Some module_name =>
                          if text_eqb name SELF then Some [mkUse at_ (or_else (sp_alias root) module_name) TSelf (st_scope s)]
                          else Some [mkUse at_ (or_else (sp_alias root) name) TItem (st_scope s)]
                      end
                  end
              end
          end
      end
  end.

(** a path outside use statements: its segments, hir_db::item_scope of it, and the scopes with use
    statements around it (ancestors_of_type::<AnyUseStmtsOwner>), innermost first *)
Record use_path := mkPath { po_path : upath; po_scope : item_scope; po_owners : list nat }.
Record world := mkWorld {
  w_stmts : nat -> list use_stmt;      (* use_stmts() of a scope *)
  w_specs : nat -> list nat;           (* related_module_specs of a module *)
  w_module : nat -> option nat;        (* module() of a module spec *)
  w_paths : list use_path;
  w_named : text -> bool               (* hir_db::named_addresses(db).contains_key *)
}.
(** use_stmts_owner_with_siblings, use_items_ext.rs:76-96 *)
Definition with_siblings (w : world) (o : nat) : list nat :=
  o :: w_specs w o ++ match w_module w o with Some m => [m] | None => [] end.
Fixpoint number_from {A} (i : nat) (l : list A) : list (nat * A) := match l with [] => [] | x :: r => (i, x) :: number_from (S i) r end.
(** the use statements of one scope with their places *)
Definition own_stmts (w : world) (o : nat) : list (nat * nat * use_stmt) := map (fun '(i, s) => (o, i, s)) (number_from 0 (w_stmts w o)).
Definition items_of (x : nat * nat * use_stmt) : option (list use_item) := let '(o, i, s) := x in use_items_for_stmt o i s.
(** use_items, l20-45, and combined_use_items, l12-18, 98-117 *)
Definition use_items (w : world) (o : nat) : list use_item :=
  flat_map (fun x => match items_of x with Some l => l | None => [] end) (own_stmts w o).
Definition combined_use_items (w : world) (o : nat) : list use_item := flat_map (use_items w) (with_siblings w o).
(** combined_use_stmts, l47-56; reachable_paths, l58-74 *)
Definition combined_use_stmts (w : world) (o : nat) : list (nat * nat * use_stmt) := flat_map (own_stmts w) (with_siblings w o).
Definition descendant_paths (w : world) (o : nat) : list use_path := filter (fun p => existsb (Nat.eqb o) (po_owners p)) (w_paths w).
Definition reachable_paths (w : world) (o : nat) : list use_path := flat_map (descendant_paths w) (with_siblings w o).

(** BasePathType::for_path, use_items.rs:92-131 *)
Inductive base_type := BAddress | BModule (x : text) | BItem (x : text).
Definition base_path_type (named : text -> bool) (p : upath) : option base_type :=
  match tl p with
  | [] => match reference_name p with Some x => Some (BItem x) | None => None end
  | q =>
      if is_address q then Some BAddress
      else if match reference_name (tl q) with Some a => named a | None => false end then Some BAddress
      else match reference_name q with Some m => Some (BModule m) | None => None end
  end.
(** find_use_items_hit, l74-90 *)
Definition hit_by (b : base_type) (u : use_item) : bool :=
  match b with
  | BItem x => item_type_eqb (u_type u) TItem && text_eqb (u_name u) x
  | BModule x => (item_type_eqb (u_type u) TModule || item_type_eqb (u_type u) TSelf) && text_eqb (u_name u) x
  | BAddress => false
  end.
(** the loop over the scopes around a path, l40-70 *)
Definition specific (s : item_scope) : option item_scope := if scope_eqb s ScMain then None else Some s.
Definition in_reach (sp : option item_scope) (u : use_item) : bool :=
  scope_eqb (u_scope u) ScMain || match sp with Some s => scope_eqb (u_scope u) s | None => false end.
Definition hit_in_owner (w : world) (b : base_type) (s : item_scope) (o : nat) : option use_item :=
  let hits := filter (hit_by b) (filter (in_reach (specific s)) (combined_use_items w o)) in
  match match specific s with Some sc => find (fun u => scope_eqb (u_scope u) sc) hits | None => None end with
  | Some u => Some u
  | None => find (fun u => scope_eqb (u_scope u) ScMain) hits
  end.
Fixpoint hit_in_owners (w : world) (b : base_type) (s : item_scope) (l : list nat) : option use_item :=
  match l with
  | [] => None
  | o :: r => match hit_in_owner w b s o with Some u => Some u | None => hit_in_owners w b s r end
  end.
(** find_use_item_hit_for_path, l25-72 *)
Definition hit_for_path (w : world) (p : use_path) : option (use_item * item_scope) :=
  match base_path_type (w_named w) (po_path p) with
  | None => None
  | Some b => match hit_in_owners w b (po_scope p) (po_owners p) with Some u => Some (u, po_scope p) | None => None end
  end.
(** find_use_items_hit_with_scopes, l11-23; the HashSet is a list *)
Definition hits_with_scopes (w : world) (o : nat) : list (use_item * item_scope) :=
  flat_map (fun p => match hit_for_path w p with Some x => [x] | None => [] end) (reachable_paths w o).

(** find_unused_use_items, unused_import.rs:63-85 *)
Fixpoint unused_in (hits : list use_item) (l : list (nat * nat * use_stmt)) : option (list use_item) :=
  match l with
  | [] => Some []
  | x :: r =>
      match items_of x with
      | None => None
      | Some items => match unused_in hits r with
                      | None => None
                      | Some rest => Some (filter (fun u => negb (existsb (use_eqb u) hits)) items ++ rest)
                      end
      end
  end.
Definition find_unused_use_items (w : world) (o : nat) : option (list use_item) :=
  unused_in (map fst (hits_with_scopes w o)) (combined_use_stmts w o).

(** UnusedUseKind and unused_use_kind, l87-157 *)
Inductive unused_kind := WholeModule | EmptyGroup | AllSpecks | Specks (l : list loc).
Definition unused_use_kind (x : nat * nat * use_stmt) (unused : list use_item) : option unused_kind :=
  if existsb (fun u => item_type_eqb (u_type u) TModule) unused then Some WholeModule
  else match items_of x with
       | None => None
       | Some [] => Some EmptyGroup
       | Some items => if length items =? length unused then Some AllSpecks else Some (Specks (map u_loc unused))
       end.
(** use_stmt.loc().contains(use_speck_loc), lang/src/loc.rs:114-120 *)
Definition stmt_contains (x : nat * nat * use_stmt) (u : use_item) : bool :=
  let '(o, i, _) := x in (l_owner (u_loc u) =? o) && (l_stmt (u_loc u) =? i).
(** the loop of find_unused_imports, l43-50, and of organize_imports_in_stmts_owner, organize_imports.rs:51-60:
    what is reported (removed) for each statement; a None ends the loop *)
Fixpoint report (unused : list use_item) (l : list (nat * nat * use_stmt)) : list ((nat * nat) * unused_kind) :=
  match l with
  | [] => []
  | x :: r => match unused_use_kind x (filter (stmt_contains x) unused) with
              | None => []
              | Some k => (fst x, k) :: report unused r
              end
  end.
Definition or_nil {A} (o : option (list A)) : list A := match o with Some l => l | None => [] end.
(** find_unused_imports, l41-50; called for modules and blocks (ide-diagnostics/src/lib.rs:112-125) *)
Definition reported_unused (w : world) (o : nat) : list ((nat * nat) * unused_kind) :=
  report (or_nil (find_unused_use_items w o)) (combined_use_stmts w o).
(** organize_imports_in_stmts_owner, l46-60 *)
Definition organized_unused (w : world) (o : nat) : list ((nat * nat) * unused_kind) :=
  match find_unused_use_items w o with None => [] | Some unused => report unused (own_stmts w o) end.

(** find_use_items_with_redundant_main_scope, reduced_scope_import.rs:11-67.  The HashSet difference is a
    filter; consecutive equal items in chunk_by come from one item only, as locations differ *)
Definition as_main (s : item_scope) : item_scope := match s with ScVerify => ScMain | _ => s end.
Definition hit_in_scope (hits : list (use_item * item_scope)) (u : use_item) (s : item_scope) : bool :=
  existsb (fun h => use_eqb u (fst h) && scope_eqb s (as_main (snd h))) hits.
Definition unused_scopes (hits : list (use_item * item_scope)) (u : use_item) : list item_scope :=
  match u_scope u with
  | ScMain => filter (fun s => negb (hit_in_scope hits u s)) [ScMain; ScTest]
  | ScTest => filter (fun s => negb (hit_in_scope hits u s)) [ScTest]
  | ScVerify => []
  end.
Definition redundant_main (hits : list (use_item * item_scope)) (u : use_item) : bool :=
  match unused_scopes hits u with [ScMain] => true | _ => false end.
Fixpoint redundant_in (hits : list (use_item * item_scope)) (l : list (nat * nat * use_stmt)) : option (list use_item) :=
  match l with
  | [] => Some []
  | x :: r =>
      match items_of x with
      | None => None
      | Some items => match redundant_in hits r with
                      | None => None
                      | Some rest => Some (filter (redundant_main hits) items ++ rest)
                      end
      end
  end.
Definition find_redundant_main (w : world) (o : nat) : option (list use_item) :=
  redundant_in (hits_with_scopes w o) (combined_use_stmts w o).
