(** Model of name resolution: visibility, resolve scopes, block bindings, walking the scopes.

    Source: crates/lang/src/nameres/is_visible.rs, resolve_scopes.rs, blocks.rs, name_resolution.rs:37-92,
    path_resolution.rs:137-216, scope.rs, namespaces.rs, crates/lang/src/nameres.rs:38-46 and the ancestor
    helpers of crates/syntax/src/ast/node_ext/{syntax_element,path}.rs.

    Simplified: a syntax element is given by the chain of its ancestors (itself first, then its parent,
    ...), each with an identity and a kind; a token's chain starts with its parent.  What other queries
    deliver (scopes of items, ids of packages, resolved friend declarations, the entries of a scope node)
    is given as data.  Names are numbers. *)
From Verif Require Import Base SyntaxKind ItemScopeModel.

(** * Ancestors *)
Record node := mkNode { n_id : nat; n_kind : kind }.
Definition chain := list node.
(** AnyMslOnly, generated/nodes.rs:9879-9893 *)
Definition msl_only (k : kind) : bool :=
  match k with ITEM_SPEC | LEMMA | MODULE_SPEC | SCHEMA | SCHEMA_FIELD | SPEC_BLOCK_EXPR | SPEC_FUN | SPEC_INLINE_FUN => true | _ => false end.
(** is_msl_context, syntax_element.rs:173-183 *)
Fixpoint is_msl_context (c : chain) : bool :=
  match c with
  | [] => false
  | a :: c' => match n_kind a with
               | MODULE | FUN | STRUCT | ENUM => false
               | k => if msl_only k then true else is_msl_context c'
               end
  end.
(** ancestor_strict, syntax_element.rs:116-118 *)
Definition ancestor_strict (k : kind) (c : chain) : option node := find (fun a => kind_eqb (n_kind a) k) (tl c).
Definition containing_module (c : chain) : option node := ancestor_strict MODULE c.
Definition containing_script (c : chain) : option node := ancestor_strict SCRIPT c.
(** root_path, path.rs:57-65: climb while the parent is a path *)
Fixpoint root_path (c : chain) : chain :=
  match c with
  | _ :: ((b :: _) as c') => if kind_eqb (n_kind b) PATH then root_path c' else c
  | _ => c
  end.
(** kind of the parent of the root path *)
Definition root_parent_kind (c : chain) : option kind := match root_path c with _ :: b :: _ => Some (n_kind b) | _ => None end.
Definition own_kind (c : chain) : option kind := match c with a :: _ => Some (n_kind a) | [] => None end.
Definition is_kind (k : kind) (o : option kind) : bool := match o with Some x => kind_eqb x k | None => false end.

(** * Namespaces, namespaces.rs:13-24 *)
Inductive ns := NAME | FUNCTION | TYPE | TUPLE_STRUCT | ENUM_NS | ENUM_VARIANT | SCHEMA_NS | MODULE_NS | LEMMA_NS.
Definition ns_eq_dec : forall a b : ns, {a = b} + {a <> b}. Proof. decide equality. Defined.
Definition ns_eqb (a b : ns) : bool := if ns_eq_dec a b then true else false.
Definition ns_set := list ns.
Definition ns_mem (n : ns) (s : ns_set) : bool := existsb (ns_eqb n) s.
Definition ITEM_TYPE_NS : ns_set := [TYPE; TUPLE_STRUCT; ENUM_NS].

(** * Visibility, visibility.rs:12-33, is_visible.rs:19-24 *)
Inductive vis_level := VFriend | VPackage.
Inductive vis := Public | Restricted (l : vis_level) | Private.
Inductive invis_reason := RPrivate (v : vis) | RWrongScope (s : item_scope) | RUnknown.

(** an item as [is_visible_in_context] sees it: the location may not resolve *)
Record item := mkItem {
  i_chain : chain;                 (* the named element and its ancestors *)
  i_ns : ns;                       (* scope_entry.ns *)
  i_vis : option vis;              (* None: AnyHasVisibility::cast fails *)
  i_scope : item_scope;            (* hir_db::item_scope of the item *)
  i_adjust : option item_scope;    (* scope_entry.scope_adjustment *)
  i_builtins : bool;               (* the item's module is 0x0::builtins *)
  i_friends : list (option node);  (* modules the friend declarations of the item's module resolve to *)
  i_package : nat
}.
Record context := mkCtx { c_chain : chain; c_scope : item_scope; c_package : nat }.
Definition node_eqb (a b : node) : bool := (n_id a =? n_id b) && kind_eqb (n_kind a) (n_kind b).
Definition opt_node_eqb (a b : option node) : bool :=
  match a, b with Some x, Some y => node_eqb x y | None, None => true | _, _ => false end.
Definition vis_private (v : option vis) : bool := match v with Some Private => true | _ => false end.

(** is_visible_in_context, is_visible.rs:74-228; [None]: visible *)
Definition is_visible (it : option item) (c : context) : option invis_reason :=
  if is_msl_context (c_chain c) then None
  else if match ancestor_strict ATTR_ITEM (c_chain c) with Some _ => true | None => false end then None
  else match it with
  | None => Some RUnknown
  | Some i =>
      let kind := own_kind (i_chain i) in
      let is_path := is_kind PATH (own_kind (c_chain c)) in
      let use_speck_ok :=
        if is_path && is_kind USE_SPECK (root_parent_kind (c_chain c)) then
          if is_kind MODULE kind || is_kind STRUCT kind || is_kind ENUM kind then true
          else if match i_vis i with Some v => negb (vis_private (Some v)) | None => false end then true
          else if match kind with Some k => msl_only k | None => false end then true
          else is_test (c_scope c) && ns_eqb (i_ns i) NAME
        else false in
      if use_speck_ok then None
      else
      let item_module := containing_module (i_chain i) in
      if (is_kind FUN kind || is_kind CONST kind) && (match item_module with Some _ => i_builtins i | None => false end) then None
      else
      let item_scope := match i_adjust i with Some a => shrink_scope (i_scope i) a | None => i_scope i end in
      if negb (scope_eqb item_scope ScMain) && negb (scope_eqb item_scope (c_scope c)) then Some (RWrongScope item_scope)
      else if match kind with Some k => msl_only k | None => false end then Some (RWrongScope ScVerify)
      else
      let context_module := containing_module (c_chain c) in
      if match item_module, context_module with Some a, Some b => node_eqb a b | _, _ => false end then None
      else if match containing_script (c_chain c) with
              | Some s => match containing_script (i_chain i) with Some s' => node_eqb s s' | None => false end
              | None => false
              end then None
      else if ns_mem (i_ns i) ITEM_TYPE_NS && is_path && is_kind PATH_TYPE (root_parent_kind (c_chain c)) then None
      else
      let v := match i_vis i with Some v => v | None => Public end in
      match v with
      | Private => Some (RPrivate v)
      | Public => None
      | Restricted VFriend =>
          match item_module, context_module with
          | Some _, Some m => if existsb (fun f => match f with Some x => node_eqb x m | None => false end) (i_friends i) then None else Some (RPrivate v)
          | _, _ => Some (RPrivate v)
          end
      | Restricted VPackage => if c_package c =? i_package i then None else Some (RPrivate v)
      end
  end.

(** * Resolve scopes, resolve_scopes.rs *)
Definition valid_scope (k : kind) : bool :=
  match k with
  | MODULE | MODULE_SPEC | SCRIPT | ITEM_SPEC | FUN | SPEC_FUN | SPEC_INLINE_FUN | LAMBDA_EXPR | SCHEMA | FOR_EXPR | FORALL_EXPR
  | EXISTS_EXPR | CHOOSE_EXPR | AXIOM_STMT | INVARIANT_STMT | APPLY_SCHEMA | MATCH_ARM | BLOCK_EXPR | GLOBAL_VARIABLE_DECL | ENUM
  | STRUCT | SPEC_BLOCK_EXPR | LEMMA | FORALL_APPLY_LEMMA => true
  | _ => false
  end.
(** the loop, l51-56: [parents] are the strict ancestors *)
Fixpoint scope_loop (parents : chain) : chain :=
  match parents with [] => [] | a :: r => if valid_scope (n_kind a) then a :: scope_loop r else scope_loop r end.
(** get_resolve_scopes, l42-81.  [inner m]: blocks of `spec module` in a module; [related m]: its module
    specs elsewhere; [target s]: the module a module spec belongs to, None as well when the name being
    resolved is that module's path *)
Definition get_resolve_scopes (inner related : node -> chain) (target : node -> option node) (c : chain) : chain :=
  let scopes := scope_loop (tl c) in
  match rev scopes with
  | last :: _ =>
      match n_kind last with
      | MODULE => scopes ++ inner last ++ related last
      | MODULE_SPEC => scopes ++ match target last with Some m => m :: inner m | None => [] end
      | _ => scopes
      end
  | [] => scopes
  end.

(** * Scope entries *)
Record entry := mkEntry { e_name : nat; e_ns : ns; e_loc : nat }.
(** let statements of a block with the entries they bind, blocks.rs:66-101 *)
Record let_stmt := mkLet { l_end : nat; l_post : bool; l_bindings : list entry }.
(** unique_by, itertools: first occurrence of each name *)
Fixpoint unique_by_name (seen : list nat) (l : list entry) : list entry :=
  match l with
  | [] => []
  | e :: r => if existsb (Nat.eqb (e_name e)) seen then unique_by_name seen r else e :: unique_by_name (e_name e :: seen) r
  end.
(** get_entries_in_block, blocks.rs:17-54; [current]: is_post of the let statement around the start *)
Definition let_visible (msl : bool) (offset : nat) (current : option bool) (s : let_stmt) : bool :=
  if negb msl then l_end s <=? offset
  else match current with
       | Some post => (negb (l_post s) || post) && (l_end s <=? offset)
       | None => true
       end.
Definition block_entries (msl : bool) (offset : nat) (current : option bool) (inline_funs : list entry) (lets : list let_stmt) : list entry :=
  (if msl then inline_funs else []) ++
  unique_by_name [] (flat_map l_bindings (rev (filter (let_visible msl offset current) lets))).

(** get_entries_from_walking_scopes, name_resolution.rs:37-92: [scopes] are the entries of every scope,
    innermost first, scopes that are skipped (a match arm whose pattern is being resolved) left out *)
Definition pair_in (n : ns) (x : nat) (l : list (ns * nat)) : bool := existsb (fun p => ns_eqb (fst p) n && (snd p =? x)) l.
Definition wanted (allowed : ns_set) (expected : option nat) (e : entry) : bool :=
  match expected with Some x => x =? e_name e | None => true end && ns_mem (e_ns e) allowed.
(** one scope: [prev] is fixed, [visited] grows *)
Fixpoint scan_scope (allowed : ns_set) (expected : option nat) (prev visited : list (ns * nat)) (acc : list entry) (l : list entry) : list (ns * nat) * list entry :=
  match l with
  | [] => (visited, acc)
  | e :: r =>
      if wanted allowed expected e && negb (pair_in (e_ns e) (e_name e) prev)
      then scan_scope allowed expected prev ((e_ns e, e_name e) :: visited) (acc ++ [e]) r
      else scan_scope allowed expected prev visited acc r
  end.
Fixpoint walk_scopes_from (allowed : ns_set) (expected : option nat) (visited : list (ns * nat)) (acc : list entry) (scopes : list (list entry)) : list entry :=
  match scopes with
  | [] => acc
  | s :: r => let '(v, a) := scan_scope allowed expected visited visited acc s in walk_scopes_from allowed expected v a r
  end.
Definition walk_scopes (allowed : ns_set) (expected : option nat) (scopes : list (list entry)) : list entry := walk_scopes_from allowed expected [] [] scopes.

(** filter_by_function_namespace_special_case, path_resolution.rs:188-216, on entries paired with their
    visibility *)
Definition entry_vis : Type := entry * option invis_reason.
Definition fn_entry (e : entry_vis) : bool := ns_eqb (e_ns (fst e)) FUNCTION.
Definition function_special_case (is_call : bool) (l : list entry_vis) : list entry_vis :=
  if is_call then match filter fn_entry l with [] => l | f => f end
  else match l with
       | _ :: _ :: _ => match filter (fun e => negb (fn_entry e)) l with [x] => [x] | _ => l end
       | _ => l
       end.
(** resolve_path for an unqualified path (path_resolution.rs:137-186), without the filter for expected enum
    types; [visible] is [is_visible] of the entry in the context of the path *)
Definition resolve_unqualified (visible : entry -> option invis_reason) (is_call : bool) (allowed : ns_set) (name : nat) (scopes : list (list entry)) : list entry_vis :=
  function_special_case is_call
    (map (fun e => (e, visible e)) (filter (fun e => e_name e =? name) (walk_scopes allowed (Some name) scopes))).
(** into_visible_entries + single_or_none, nameres.rs:38-46 *)
Definition resolve_single (l : list entry_vis) : option entry :=
  match filter (fun e => match snd e with None => true | Some _ => false end) l with [(e, _)] => Some e | _ => None end.
