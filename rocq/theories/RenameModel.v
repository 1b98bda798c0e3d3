(** Model of renaming: the text edits made for the references and the definition.
    crates/ide-db/src/rename.rs, with crates/syntax/src/ast/node_ext/struct_lit_field.rs, struct_pat_field.rs, path.rs and
    ide-db/src/source_change.rs.

    Which names refer to the renamed item is what find usages reports (UsagesModel); here [refs] is that list, for one
    file, and [def] the NAME of the item.  Aliases, library items and the choice of the item under the cursor
    (ide/src/rename.rs:51-114) are not modelled. *)
From Coq Require Import String.
Close Scope string_scope.
From Verif Require Import Base SyntaxKind TextEditModel TreeSinkModel TreeDiffModel EditorModel AddressModel ParserModel LexerModel SelectionModel SignatureModel UsagesModel.
Close Scope N_scope.
Open Scope nat_scope.
Open Scope list_scope.
Local Notation change := TextEditModel.change.

(** ast::Expr::can_cast, syntax/src/ast/generated/nodes.rs:6993-7035 *)
Definition is_expr (k : kind) : bool :=
  match k with
  | ABORT_EXPR | ANNOTATED_EXPR | ASSERT_MACRO_EXPR | BANG_EXPR | BEHAVIOR_PREDICATE_EXPR | BIN_EXPR | BLOCK_EXPR | BORROW_EXPR
  | BREAK_EXPR | CALL_EXPR | CAST_EXPR | CHOOSE_EXPR | CONTINUE_EXPR | DEREF_EXPR | DOT_EXPR | EXISTS_EXPR | FOR_EXPR | FORALL_EXPR
  | IF_EXPR | INDEX_EXPR | IS_EXPR | LAMBDA_EXPR | LITERAL | LOOP_EXPR | MATCH_EXPR | METHOD_CALL_EXPR | MINUS_EXPR | PAREN_EXPR
  | PATH_EXPR | RANGE_EXPR | RESOURCE_EXPR | RETURN_EXPR | SPEC_BLOCK_EXPR | STRUCT_LIT | TUPLE_EXPR | UNIT_EXPR | VECTOR_LIT_EXPR
  | WHILE_EXPR => true
  | _ => false
  end.
(** the renamed item, as far as the edits depend on it: NamedElement::NamedField, IdentPat, or another *)
Inductive target := Field | Binding | OtherItem.

(** Path::root_path, path.rs:56-63; [rp] is the path to the PATH node, reversed *)
Fixpoint root_of (t : tree) (rp : list nat) : place_path :=
  match rp with
  | [] => []
  | _ :: r => if kind_is t (is_kind PATH) (rev r) then root_of t r else rev rp
  end.
(** NameRef::try_into_struct_lit_field, struct_lit_field.rs:25-48; PathSegment::parent_path panics without a path,
    node_ext.rs:130-135 *)
Inductive lit_kind := LitFull (expr : option place_path) | LitShort.
Definition lit_field (t : tree) (p : place_path) : res (option lit_kind) :=
  match parent_of t (is_kind STRUCT_LIT_FIELD) p with
  | Some q => Ok (Some (LitFull (first_child t is_expr q)))
  | None =>
      match parent_of t (is_kind PATH_SEGMENT) p with
      | None => Ok None
      | Some s =>
          match parent_of t (is_kind PATH) s with
          | None => Panic
          | Some path =>
              match obind (parent_of t (is_kind PATH_EXPR) (root_of t (rev path))) (parent_of t (is_kind STRUCT_LIT_FIELD)) with
              | None => Ok None
              | Some q => match first_child t (is_kind NAME_REF) q with None => Ok (Some LitShort) | Some _ => Ok None end
              end
          end
      end
  end.
(** Name::text: text_of_first_token, node_ext.rs:114-122 *)
Definition name_text (t : tree) (p : place_path) : res text := match children_of t p with TTok _ x :: _ => Ok x | _ => Panic end.
Definition text_eqb (a b : text) : bool := if list_eq_dec N.eq_dec a b then true else false.
Definition upto (a b : nat) : range := mkRange a b.

(** source_edit_from_name, rename.rs:96-110; None: no edit was emitted.  StructPatField::for_field_name,
    struct_pat_field.rs:45-49 *)
Definition from_name (t : tree) (new : text) (p : place_path) : res (option (list change)) :=
  match obind (parent_of t (is_kind IDENT_PAT) p) (parent_of t (is_kind STRUCT_PAT_FIELD)) with
  | None => Ok None
  | Some q =>
      match first_child t (is_kind IDENT_PAT) q with
      | None => Panic
      | Some ip => Ok (Some [insert_change (r_start (range_at t ip)) (new ++ str ": ")])
      end
  end.
(** source_edit_from_name_ref, rename.rs:112-183 *)
Definition from_pat_field (t : tree) (new : text) (p : place_path) : res (option (list change)) :=
  match parent_of t (is_kind STRUCT_PAT_FIELD) p with
  | None => Ok None
  | Some q =>
      match first_child t (is_kind NAME_REF) q, first_child t (is_kind IDENT_PAT) q with
      | Some f, Some ip =>
          if list_eq_dec Nat.eq_dec f p then
            match first_child t (is_kind NAME) ip with
            | None => Ok None
            | Some nm =>
                bind (name_text t nm) (fun x =>
                if text_eqb x new
                then Ok (Some [delete_change (upto (r_start (range_at t f)) (r_start (range_at t ip))); replace_change (range_at t nm) new])
                else Ok None)
            end
          else Ok None
      | _, _ => Ok None
      end
  end.
Definition from_name_ref (t : tree) (tg : target) (new : text) (p : place_path) : res (option (list change)) :=
  bind (lit_field t p) (fun l =>
  match l with
  | Some (LitFull (Some e)) =>
      if text_eqb (text_at t e) new then Ok (Some [delete_change (upto (r_start (range_at t p)) (r_start (range_at t e)))]) else Ok None
  | Some (LitFull None) => Ok None
  | Some LitShort =>
      match tg with
      | Field => Ok (Some [insert_change (r_start (range_at t p)) (new ++ str ": ")])
      | Binding => Ok (Some [insert_change (r_end (range_at t p)) (str ": " ++ new)])
      | OtherItem => Ok None
      end
  | None => from_pat_field t new p
  end).
(** one reference, rename.rs:79-91 *)
Definition ref_changes (t : tree) (tg : target) (new : text) (p : place_path) : res (list change) :=
  bind (match kind_at t p with Some NAME_REF => from_name_ref t tg new p | _ => from_name t new p end) (fun e =>
  Ok (match e with Some cs => cs | None => [replace_change (range_at t p) new] end)).
Fixpoint refs_changes (t : tree) (tg : target) (new : text) (refs : list place_path) : res (list change) :=
  match refs with
  | [] => Ok []
  | p :: r => bind (ref_changes t tg new p) (fun c => bind (refs_changes t tg new r) (fun cs => Ok (c ++ cs)))
  end.
(** source_edit_from_def, rename.rs:185-191 *)
Definition def_change (t : tree) (new : text) (def : place_path) : change := replace_change (range_at t def) new.
(** rename_named_element, rename.rs:42-71, in the file of the definition: the edits and whether the edits of the
    references and of the definition could be merged (SourceChange::insert_source_edit, source_change.rs:51-61; `never!`
    reports an overlap and leaves the definition as it is) *)
Definition rename_edit (t : tree) (tg : target) (new : text) (refs : list place_path) (def : place_path) : res (list change * bool) :=
  bind (refs_changes t tg new refs) (fun cs =>
  bind (build_edit cs) (fun e =>
  bind (build_edit [def_change t new def]) (fun d =>
  match refs with [] => Ok (d, true) | _ => Ok (union e d) end))).

(** IdentifierKind::classify, rename.rs:201-222; None: an error is reported.  ide/src/rename.rs:43 only asks whether
    there is a kind. *)
Inductive ident_kind := IkIdent | IkLabel | IkUnderscore.
Definition classify (cl : list N -> nat) (new : list N) : option (res (option ident_kind)) :=
  option_map (fun r => bind r (fun o => Ok (match o with
    | Some tok => match rt_kind tok with IDENT => Some IkIdent | QUOTE_IDENT => Some IkLabel | UNDERSCORE => Some IkUnderscore | _ => None end
    | None => None
    end))) (parse_single_token cl new).
