(** Model of inlay hints: the types of variables, the names of parameters and the ends of ranges shown inside the text, for the part of the file that is
    visible, and the request that fills in the links of a hint later.

    Source: crates/ide/src/inlay_hints.rs, inlay_hints/ident_pat.rs, inlay_hints/param_name.rs, inlay_hints/range_exclusive.rs,
    crates/lang/src/node_ext/callable.rs, crates/aptos-language-server/src/handlers/request.rs:717-804, lsp/to_proto.rs:700-769.

    Simplified: types, the functions called and lower case are given by [semantics]; tooltips and text edits, which no hint of this code has, are left out;
    the walk over the tree is a recursion, a subtree is skipped by not going into it.  Positions are offsets, as in OutlineModel.v. *)
From Coq Require Import String Ascii.
From Verif Require Import Base SyntaxKind TreeSinkModel AddressModel FixModel OutlineModel.
Open Scope list_scope.

(** InlayHintsConfig, inlay_hints.rs:103-111; [lazy] is fields_to_resolve.resolve_label_location *)
Record config := mkConfig { render_colons : bool; type_hints : bool; tuple_type_hints : bool; parameter_hints : bool; range_exclusive_hints : bool; hide_closure_parameter_hints : bool; lazy : bool }.
(** where a link leads: file and range *)
Definition loc := (nat * range)%type.
(** LazyProperty<FileRange>: inlay_hints.rs:208-212 *)
Inductive link := Lazy | Computed (l : loc).
(** InlayHintLabelPart: inlay_hints.rs:371-382 *)
Record part := mkPart { p_text : text; p_link : option link }.
Inductive hint_kind := HType | HParameter | HRangeExclusive.
Inductive position := Before | After.
(** InlayHint: inlay_hints.rs:190-206 *)
Record hint := mkHint { h_range : range; h_position : position; h_pad_left : bool; h_pad_right : bool; h_kind : hint_kind; h_label : list part; h_resolve_parent : option range }.
(** what CallableInfo::params reads: callable.rs:169-176 *)
Inductive callable := CFunction (name : option text) (params : list text) | CPredicate (params : list text) | CTuple (n : nat) | CLambdaType (n : nat) | CLambda (params : list (option text)) | CAssert.
(** what the renderer of types does with its sink: render.rs:22-27, 206-242.  The location of an item may be missing: NavigationTarget::from_named_item *)
Inductive write := Write (x : text) | StartLink (l : option loc) | EndLink.
(** the part of the semantics used: the type of a variable as it is written, None if there is none, it is unknown or cannot be written; whether a let
    statement takes a reference to a resource by index; what is called; the file with builtins is there; lower case.  Nodes are given with their offsets *)
Record semantics := mkSem { type_of : nat -> tree -> option (list write); takes_resource : nat -> tree -> bool; callee : nat -> tree -> option callable; has_builtins : bool; lower : text -> text }.

(** * Labels *)
(** InlayHintLabelBuilder: inlay_hints.rs:423-429 *)
Record builder := mkBuilder { b_parts : list part; b_last : text; b_location : option link }.
(** make_new_part: inlay_hints.rs:461-470 *)
Definition make_new_part (b : builder) : builder :=
  match b_last b with
  | [] => b
  | x => mkBuilder (b_parts b ++ [mkPart x (b_location b)]) [] None
  end.
(** write_str, start_location_link and end_location_link: inlay_hints.rs:431-458 *)
Definition write_one (lz : bool) (b : builder) (w : write) : builder :=
  match w with
  | Write x => mkBuilder (b_parts b) (b_last b ++ x) (b_location b)
  | StartLink l =>
      let b := make_new_part b in
      if lz then mkBuilder (b_parts b) (b_last b) (Some Lazy)
      else match l with Some l => mkBuilder (b_parts b) (b_last b) (Some (Computed l)) | None => b end
  | EndLink => make_new_part b
  end.
(** label_of_ty and finish: inlay_hints.rs:472-493 *)
Definition label_of (lz : bool) (ws : list write) : list part := b_parts (make_new_part (fold_left (write_one lz) ws (mkBuilder [] [] None))).
(** prepend_str: inlay_hints.rs:280-299 *)
Definition prepend_str (s : text) (l : list part) : list part :=
  match l with
  | mkPart x None :: r => mkPart (s ++ x) None :: r
  | _ => mkPart s None :: l
  end.
(** append_str: inlay_hints.rs:301-317 *)
Definition append_str (s : text) (l : list part) : list part :=
  match rev l with
  | mkPart x None :: r => rev r ++ [mkPart (x ++ s) None]
  | _ => l ++ [mkPart s None]
  end.

(** * Nodes *)
Definition kind_of (t : tree) : kind := match t with TNode k _ => k | TTok k _ => k end.
Definition range_of (x : nat * tree) : range := (fst x, fst x + len (snd x)).
(** children with their offsets *)
Fixpoint at_offsets (off : nat) (l : list tree) : list (nat * tree) := match l with [] => [] | c :: r => (off, c) :: at_offsets (off + len c) r end.
Definition children (x : nat * tree) : list (nat * tree) := match snd x with TNode _ ch => at_offsets (fst x) ch | TTok _ _ => [] end.
Definition is_node (t : tree) : bool := match t with TNode _ _ => true | TTok _ _ => false end.
(** support::children, support::child and support::token *)
Definition nodes_of (f : kind -> bool) (x : nat * tree) : list (nat * tree) := filter (fun c => is_node (snd c) && f (kind_of (snd c))) (children x).
Definition node_of (f : kind -> bool) (x : nat * tree) : option (nat * tree) := hd_error (nodes_of f x).
Definition token_of (k : kind) (x : nat * tree) : option (nat * tree) := find (fun c => negb (is_node (snd c)) && kind_eqb k (kind_of (snd c))) (children x).
Definition any_of (l : list kind) (k : kind) : bool := existsb (kind_eqb k) l.
(** Type::can_cast: generated/nodes.rs:9385-9390 *)
Definition is_type : kind -> bool := any_of [LAMBDA_TYPE; PAREN_TYPE; PATH_TYPE; REF_TYPE; TUPLE_TYPE; UNIT_TYPE].
(** IdentPatOwner::can_cast: generated/nodes.rs:7572-7584 *)
Definition is_ident_pat_owner : kind -> bool := any_of [FOR_CONDITION; ITEM_SPEC_PARAM; LAMBDA_PARAM; LET_STMT; MATCH_ARM; PARAM; QUANT_BINDING; SCHEMA_FIELD].
(** AnyCallExpr::can_cast: generated/nodes.rs:6301-6306 *)
Definition is_call : kind -> bool := any_of [APPLY_LEMMA; ASSERT_MACRO_EXPR; BEHAVIOR_PREDICATE_EXPR; CALL_EXPR; METHOD_CALL_EXPR].
Definition txt (s : string) : text := map N_of_ascii (list_ascii_of_string s).
Definition underscore : byte := 95%N.
Definition starts_with_underscore (x : text) : bool := match x with c :: _ => N.eqb c underscore | [] => false end.
(** the text of a node *)
Fixpoint text_of (t : tree) : text := match t with TNode _ ch => flat_map text_of ch | TTok _ x => x end.

(** * Types of variables: ident_pat.rs:14-97 *)
(** lines 33-68: the colon, or None if there is to be no hint; [anc] are the ancestors, the nearest first *)
Definition colon_of (cfg : config) (sem : semantics) (anc : list (nat * tree)) : option (option (nat * tree)) :=
  match find (fun a => is_ident_pat_owner (kind_of (snd a))) anc with
  | None => None
  | Some o =>
      match kind_of (snd o) with
      | LAMBDA_PARAM => match node_of is_type o with
                        | Some _ => None
                        | None => if hide_closure_parameter_hints cfg then None else Some (token_of COLON o)
                        end
      | LET_STMT => match node_of is_type o with
                    | Some _ => None
                    | None =>
                        let parent_is k := match anc with p :: _ => kind_eqb (kind_of (snd p)) k | [] => false end in
                        if negb (tuple_type_hints cfg) && parent_is TUPLE_PAT then None
                        else if parent_is LET_STMT && takes_resource sem (fst o) (snd o) then None
                        else Some (token_of COLON o)
                    end
      | _ => None
      end
  end.
Definition cover (a b : range) : range := (Nat.min (fst a) (fst b), Nat.max (snd a) (snd b)).
Definition ident_pat_hints (cfg : config) (sem : semantics) (anc : list (nat * tree)) (x : nat * tree) : list hint :=
  if negb (type_hints cfg) then [] else
  match type_of sem (fst x) (snd x) with
  | None => []
  | Some ws =>
      let name := node_of (kind_eqb NAME) x in
      if match name with Some n => starts_with_underscore (text_of (snd n)) | None => false end then [] else
      match colon_of cfg sem anc with
      | None => []
      | Some colon =>
          let label := label_of (lazy cfg) ws in
          let colons := render_colons cfg && match colon with None => true | Some _ => false end in
          let label := if colons then prepend_str (txt ": ") label else label in
          let r := match name with Some n => range_of n | None => range_of x end in
          [mkHint (match colon with Some t => cover r (range_of t) | None => r end) After (negb colons) false HType label (Some (range_of x))]
      end
  end.

(** * Names of parameters: param_name.rs:16-81 *)
(** KNOWN_CALLABLES with BUILTIN_MUT_RESOURCE_FUNCTIONS, param_name.rs:75-81, defs.rs:27-35 *)
Definition known_callables : list text := map txt ["borrow_global"; "borrow_global_mut"; "move_to"; "move_from"; "freeze"; "assert!"; "exists"]%string.
(** CallableItem::name: callable.rs:178-186 *)
Definition callable_name (c : callable) : option text := match c with CFunction n _ => n | CAssert => Some (txt "assert!") | _ => None end.
(** CallableInfo::params, the names: callable.rs:92-164 *)
Definition param_names (is_method : bool) (c : callable) : list (option text) :=
  match c with
  | CAssert => [Some (txt "_"); Some (txt "err")]
  | CFunction _ ps | CPredicate ps => map Some (if is_method then tl ps else ps)
  | CTuple n | CLambdaType n => repeat None n
  | CLambda ps => ps
  end.
(** callable_info: semantics.rs:193-203 *)
Definition callable_info (sem : semantics) (x : nat * tree) : option callable :=
  if kind_eqb (kind_of (snd x)) ASSERT_MACRO_EXPR then if has_builtins sem then Some CAssert else None else callee sem (fst x) (snd x).
(** arg_exprs: any_call_expr.rs:8-10, value_arg_list.rs:10-12 *)
Definition arg_exprs (x : nat * tree) : list (option (nat * tree)) :=
  match node_of (kind_eqb VALUE_ARG_LIST) x with Some l => map (node_of is_expr) (nodes_of (kind_eqb VALUE_ARG) l) | None => [] end.
(** trim_start_matches("_") *)
Fixpoint trim (x : text) : text := match x with c :: r => if N.eqb c underscore then trim r else x | [] => [] end.
(** str::contains *)
Fixpoint starts (p x : text) : bool := match p, x with [], _ => true | a :: p', b :: x' => N.eqb a b && starts p' x' | _ :: _, [] => false end.
Fixpoint contains (x p : text) : bool := starts p x || match x with _ :: r => contains r p | [] => false end.
Definition param_hint (cfg : config) (sem : semantics) (pa : option text * option (nat * tree)) : list hint :=
  match pa with
  | (Some n, Some e) =>
      let n := trim n in
      if contains (lower sem (text_of (snd e))) (lower sem n) then []
      else [mkHint (range_of e) Before false false HParameter (if render_colons cfg then append_str (txt ": ") [mkPart n None] else [mkPart n None]) None]
  | _ => []
  end.
Definition param_hints (cfg : config) (sem : semantics) (x : nat * tree) : list hint :=
  if negb (parameter_hints cfg) then [] else
  match callable_info sem x with
  | None => []
  | Some c =>
      if match callable_name c with Some n => existsb (text_eqb n) known_callables | None => false end then [] else
      let params := param_names (kind_eqb (kind_of (snd x)) METHOD_CALL_EXPR) c in
      if List.length params =? 1 then [] else flat_map (param_hint cfg sem) (List.combine params (arg_exprs x))
  end.

(** * Ends of ranges: range_exclusive.rs:12-38 *)
Definition range_hints (cfg : config) (x : nat * tree) : list hint :=
  if range_exclusive_hints cfg && match nth_error (nodes_of is_expr x) 1 with Some _ => true | None => false end
  then match token_of DOT_DOT x with Some t => [mkHint (range_of t) After false false HRangeExclusive [mkPart (txt "<") None] None] | None => [] end
  else [].

(** * The file *)
(** hints: inlay_hints.rs:56-71 *)
Definition node_hints (cfg : config) (sem : semantics) (anc : list (nat * tree)) (x : nat * tree) : list hint :=
  let k := kind_of (snd x) in
  if kind_eqb k IDENT_PAT then ident_pat_hints cfg sem anc x
  else if is_call k then param_hints cfg sem x
  else if kind_eqb k RANGE_EXPR then range_hints cfg x
  else [].
(** TextRange::intersect and contains_range (crate text-size) *)
Definition intersects (a b : range) : bool := Nat.max (fst a) (fst b) <=? Nat.min (snd a) (snd b).
Definition contains_range (a b : range) : bool := (fst a <=? fst b) && (snd b <=? snd a).
(** the loop over the tree, inlay_hints.rs:36-49, 85-97 *)
Fixpoint walk (limit : option range) (cfg : config) (sem : semantics) (anc : list (nat * tree)) (off : nat) (t : tree) : list hint :=
  match t with
  | TTok _ _ => []
  | TNode _ ch =>
      if match limit with Some r => negb (intersects r (off, off + len t)) | None => false end then []
      else node_hints cfg sem anc (off, t) ++ (fix all o l := match l with [] => [] | c :: r => walk limit cfg sem ((off, t) :: anc) o c ++ all (o + len c) r end) off ch
  end.
(** inlay_hints: inlay_hints.rs:25-54 *)
Definition inlay_hints (limit : option range) (cfg : config) (sem : semantics) (t : tree) : list hint :=
  let acc := walk limit cfg sem [] 0 t in
  match limit with Some r => filter (fun h => contains_range r (h_range h)) acc | None => acc end.
(** handle_inlay_hints, request.rs:717-750: the range is cut at the end of the file *)
Definition handle_inlay_hints (r : range) (cfg : config) (sem : semantics) (t : tree) : list hint :=
  inlay_hints (Some (Nat.min (fst r) (len t), Nat.min (snd r) (len t))) cfg sem t.

(** * Links later *)
(** impl Hash for InlayHint and InlayHintLabelPart, inlay_hints.rs:227-237, 384-390: what is hashed *)
Definition hashed := (range * position * bool * bool * hint_kind * list (text * bool))%type.
Definition hashed_of (h : hint) : hashed :=
  (h_range h, h_position h, h_pad_left h, h_pad_right h, h_kind h, map (fun p => (p_text p, match p_link p with Some _ => true | None => false end)) (h_label h)).
(** fields_to_resolve = InlayFieldsToResolve::empty(): request.rs:775-776 *)
Definition forced (cfg : config) : config :=
  mkConfig (render_colons cfg) (type_hints cfg) (tuple_type_hints cfg) (parameter_hints cfg) (range_exclusive_hints cfg) (hide_closure_parameter_hints cfg) false.
(** inlay_hints_resolve, inlay_hints.rs:73-99: the range is not used to filter *)
Definition inlay_hints_resolve (hash : hashed -> N) (resolve_range : range) (hash_value : N) (cfg : config) (sem : semantics) (t : tree) : option hint :=
  find (fun h => N.eqb (hash (hashed_of h)) hash_value) (walk (Some resolve_range) cfg sem [] 0 t).
(** hint_needs_resolve, to_proto.rs:707-715 *)
Definition needs_resolve (h : hint) : option range :=
  if existsb (fun p => match p_link p with Some Lazy => true | _ => false end) (h_label h) then h_resolve_parent h else None.
(** the position shown: to_proto.rs:751-754 *)
Definition shown_at (h : hint) : nat := match h_position h with Before => fst (h_range h) | After => snd (h_range h) end.
(** InlayHintKind of the protocol: to_proto.rs:757-763 *)
Definition proto_kind (k : hint_kind) : option bool := match k with HParameter => Some true | HType => Some false | HRangeExclusive => None end.
(** handle_inlay_hints_resolve, request.rs:752-804, with the data the hint was sent with *)
Definition handle_resolve (hash : hashed -> N) (cfg : config) (sem : semantics) (t : tree) (h : hint) : hint :=
  match needs_resolve h with
  | None => h
  | Some r => match inlay_hints_resolve hash r (hash (hashed_of h)) (forced cfg) sem t with
              | Some h' => if (shown_at h' =? shown_at h) && match proto_kind (h_kind h'), proto_kind (h_kind h) with Some a, Some b => Bool.eqb a b | None, None => true | _, _ => false end then h' else h
              | None => h
              end
  end.
