(** Model of the outline of a file: the symbols in the order of the tree, and the hierarchy made of them for the client.

    Source: crates/ide/src/file_structure.rs, crates/ide-db/src/lib.rs:57-86, crates/syntax/src/ast/node_ext.rs:108-127,
    crates/aptos-language-server/src/handlers/request.rs:89-167, lsp/to_proto.rs:56-77.

    Simplified: ranges are offsets, their conversion to lines and columns is in LspTextModel.v; the address of the file in the flat list is left out. *)
From Verif Require Import Base SyntaxKind TreeSinkModel.
Open Scope list_scope.

(** SymbolKind, those a named element can have: lib.rs:57-86 *)
Inductive symbol_kind := SModule | SFunction | SConst | SStruct | SEnum | STypeParam | SVariant | SField | SGlobal | SLemma | SLocal.
(** ast_kind_to_symbol_kind with NamedElement::cast, generated/nodes.rs:8476-8517: None if it is no named element; [par] is the kind of the parent *)
Definition symbol_kind_of (par : option kind) (k : kind) : option symbol_kind :=
  match k with
  | MODULE => Some SModule
  | FUN | SPEC_FUN | SPEC_INLINE_FUN => Some SFunction
  | CONST => Some SConst
  | STRUCT => Some SStruct
  | ENUM => Some SEnum
  | TYPE_PARAM => Some STypeParam
  | VARIANT => Some SVariant
  | NAMED_FIELD => Some SField
  | SCHEMA => Some SStruct
  | GLOBAL_VARIABLE_DECL => Some SGlobal
  | LEMMA => Some SLemma
  | IDENT_PAT => Some (match par with Some SCHEMA_FIELD => SField | _ => SLocal end)
  | USE_ALIAS => Some SLocal
  | _ => None
  end.
Definition range := (nat * nat)%type.
(** StructureNode without its parent *)
Record symbol := mkSymbol { s_label : text; s_name : range; s_range : range; s_kind : symbol_kind }.
(** the length of a text *)
Fixpoint len (t : tree) : nat := match t with TNode _ ch => (fix all l := match l with [] => 0 | c :: r => len c + all r end) ch | TTok _ x => List.length x end.
Definition lens (l : list tree) : nat := fold_right (fun c n => len c + n) 0 l.
(** name(): the first child that is a NAME, with its offset *)
Fixpoint first_name (off : nat) (ch : list tree) : option (nat * tree) :=
  match ch with
  | [] => None
  | TNode k l :: r => if kind_eqb k NAME then Some (off, TNode k l) else first_name (off + len (TNode k l)) r
  | c :: r => first_name (off + len c) r
  end.
(** structure_node, file_structure.rs:45-57.  None: a panic, text_of_first_token with a name that does not begin with a token *)
Definition structure_node (par : option kind) (off : nat) (t : tree) : option (option symbol) :=
  match t with
  | TTok _ _ => Some None
  | TNode k ch =>
      match symbol_kind_of par k with
      | None => Some None
      | Some sk => match first_name off ch with
                   | None => Some None
                   | Some (o, n) => match n with
                                    | TNode _ (TTok _ x :: _) => Some (Some (mkSymbol x (o, o + len n) (off, off + len t) sk))
                                    | _ => None
                                    end
                   end
      end
  end.
(** preorder_with_tokens, tokens left out: nodes are entered and left *)
Inductive event := Enter (par : option kind) (off : nat) (t : tree) | Leave (par : option kind) (off : nat) (t : tree).
Fixpoint preorder (par : option kind) (off : nat) (t : tree) : list event :=
  match t with
  | TTok _ _ => []
  | TNode k ch => Enter par off t :: (fix walk off l := match l with [] => [] | c :: r => preorder (Some k) off c ++ walk (off + len c) r end) off ch ++ [Leave par off t]
  end.
(** file_structure, file_structure.rs:20-43: the symbols with the indices of their parents; [stack] is the stack, its top first.  None: a panic *)
Fixpoint collect (es : list event) (stack : list nat) (acc : list (symbol * option nat)) : option (list (symbol * option nat)) :=
  match es with
  | [] => Some acc
  | Enter par off t :: r => match structure_node par off t with
                            | None => None
                            | Some None => collect r stack acc
                            | Some (Some s) => collect r (List.length acc :: stack) (acc ++ [(s, hd_error stack)])
                            end
  | Leave par off t :: r => match structure_node par off t with
                            | None => None
                            | Some None => collect r stack acc
                            | Some (Some _) => match stack with [] => None | _ :: stack' => collect r stack' acc end
                            end
  end.
Definition file_structure (t : tree) : option (list (symbol * option nat)) := collect (preorder None 0 t) [] [].
(** DocumentSymbol *)
Inductive doc := Doc (s : symbol) (children : option (list doc)).
(** parents[i].0.children.get_or_insert_with(Vec::new).push(d).  None: there is no such entry, a panic *)
Fixpoint push_child (i : nat) (d : doc) (ps : list (doc * option nat)) : option (list (doc * option nat)) :=
  match ps, i with
  | [], _ => None
  | (Doc s cs, p) :: r, 0 => Some ((Doc s (Some (match cs with Some l => l | None => [] end ++ [d])), p) :: r)
  | x :: r, S i' => option_map (cons x) (push_child i' d r)
  end.
(** children.reverse(), request.rs:120-122 *)
Definition reverse_children (d : doc) : doc := match d with Doc s cs => Doc s (option_map (@rev doc) cs) end.
(** request.rs:117-131: the last entry is put into its parent until there is none left; [fuel] is the number of entries *)
Fixpoint hierarchy (fuel : nat) (ps : list (doc * option nat)) (acc : list doc) : option (list doc) :=
  match fuel with
  | 0 => Some (rev acc)
  | S f =>
      match rev ps with
      | [] => Some (rev acc)
      | (d, p) :: r => match p with
                       | None => hierarchy f (rev r) (acc ++ [reverse_children d])
                       | Some i => match push_child i (reverse_children d) (rev r) with Some ps' => hierarchy f ps' acc | None => None end
                       end
      end
  end.
(** handle_document_symbol, request.rs:98-131 *)
Definition document_symbols (l : list (symbol * option nat)) : option (list doc) :=
  hierarchy (List.length l) (map (fun x => (Doc (fst x) None, snd x)) l) [].
Definition outline_of (t : tree) : option (list doc) := match file_structure t with Some l => document_symbols l | None => None end.
(** flatten_document_symbol, request.rs:145-167: symbols with the names of what contains them *)
Fixpoint flatten (container : option text) (d : doc) : list (symbol * option text) :=
  match d with Doc s cs => (s, container) :: match cs with Some l => flat_map (flatten (Some (s_label s))) l | None => [] end end.
Definition flat_symbols (l : list doc) : list (symbol * option text) := flat_map (flatten None) l.
(** to_proto::symbol_kind, to_proto.rs:56-77 *)
Inductive lsp_kind := LModule | LFunction | LConstant | LStruct | LEnum | LTypeParameter | LEnumMember | LField | LVariable.
Definition lsp_kind_of (k : symbol_kind) : lsp_kind :=
  match k with
  | SFunction => LFunction | SStruct => LStruct | SEnum => LEnum | SVariant => LEnumMember | SModule => LModule | STypeParam => LTypeParameter
  | SField => LField | SConst => LConstant | SLocal | SGlobal => LVariable | SLemma => LFunction
  end.
