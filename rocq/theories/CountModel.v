(** Model of the diagnostics about numbers: arguments of calls, fields of struct literals and of patterns.

    Source: crates/ide-diagnostics/src/handlers/call_params.rs, handlers/missing_fields.rs, crates/syntax/src/ast/node_ext/assert_macro_expr.rs,
    struct_lit.rs, struct_lit_field.rs, struct_pat.rs, struct_pat_field.rs, tuple_struct_pat.rs, fields_owner.rs.

    Simplified: the number of parameters of what is called and the item a path leads to are given; the wording of the messages is left out, what they
    mention is kept.  Trees and offsets are those of InlayModel.v. *)
From Coq Require Import String.
From Verif Require Import Base SyntaxKind TreeSinkModel AddressModel FixModel OutlineModel InlayModel.
Open Scope list_scope.

(** the part of the semantics used: param_types.len() of get_call_expr_type; the number of parameters of the function a behaviour predicate is about; the struct or variant of a literal or a pattern *)
Record resolver := mkResolver { callable_params : nat -> tree -> option nat; predicate_params : nat -> tree -> option nat; owner_of : nat -> tree -> option (nat * tree) }.
Inductive message := ArgumentsNumber (min max actual : nat) | MissingLitFields (names : list text) | MissingPatFields (owner : kind) (names : list text) | MissingTuplePatFields (owner : kind) (expected found : nat).
Record diagnostic := mkDiagnostic { d_range : range; d_message : message }.

(** * Arguments: call_params.rs *)
(** the loop at lines 23-27: None if an expression is missing *)
Fixpoint all_exprs (l : list (nat * tree)) : option (list (nat * tree)) :=
  match l with
  | [] => Some []
  | a :: r => match node_of is_expr a with Some e => option_map (cons e) (all_exprs r) | None => None end
  end.
(** assert_kind with lines 46-50: assert_macro_expr.rs:17-25.  None: a panic *)
Definition assert_counts (x : nat * tree) : option (nat * nat) :=
  match token_of IDENT x with
  | None => None
  | Some i =>
      let s := text_of (snd i) in
      if text_eqb s (txt "assert") || text_eqb s (txt "debug_assert") then Some (1, 6)
      else if text_eqb s (txt "assert_eq") || text_eqb s (txt "debug_assert_eq") then Some (2, 7)
      else if text_eqb s (txt "assert_ne") || text_eqb s (txt "debug_assert_ne") then Some (2, 7)
      else None
  end.
(** lines 30-66: the least and the greatest number.  Panic: the subtraction of the receiver, an unknown assertion; Ok None: return *)
Definition expected_counts (rs : resolver) (x : nat * tree) : res (option (nat * nat)) :=
  match kind_of (snd x) with
  | CALL_EXPR | APPLY_LEMMA => Ok (option_map (fun n => (n, n)) (callable_params rs (fst x) (snd x)))
  | METHOD_CALL_EXPR => match callable_params rs (fst x) (snd x) with
                        | None => Ok None
                        | Some 0 => Panic
                        | Some (S n) => Ok (Some (n, n))
                        end
  | ASSERT_MACRO_EXPR => match assert_counts x with Some c => Ok (Some c) | None => Panic end
  | BEHAVIOR_PREDICATE_EXPR => Ok (option_map (fun n => (n, n)) (predicate_params rs (fst x) (snd x)))
  | _ => Ok None
  end.
(** check_value_arguments: lines 14-100; the loop over the extra arguments returns in its first round *)
Definition check_value_arguments (rs : resolver) (x : nat * tree) : res (list diagnostic) :=
  match node_of (kind_eqb VALUE_ARG_LIST) x with
  | None => Ok []
  | Some l =>
      match all_exprs (nodes_of (kind_eqb VALUE_ARG) l) with
      | None => Ok []
      | Some es =>
          bind (expected_counts rs x) (fun c =>
            match c with
            | None => Ok []
            | Some (min, max) =>
                let n := List.length es in
                if n <? min then Ok [mkDiagnostic (match token_of R_PAREN l with Some p => range_of p | None => range_of l end) (ArgumentsNumber min max n)]
                else if max <? n then Ok (match skipn max es with e :: _ => [mkDiagnostic (range_of e) (ArgumentsNumber min max n)] | [] => [] end)
                else Ok []
            end)
      end
  end.

(** * Fields: missing_fields.rs *)
(** Name::as_string and NameRef::as_string: traits.rs:32-34, name_ref.rs:27-36 *)
Definition name_string (x : nat * tree) : text :=
  match token_of IDENT x with Some i => text_of (snd i) | None => match token_of INT_NUMBER x with Some i => text_of (snd i) | None => [] end end.
(** StructLitField::field_name, struct_lit_field.rs:72-87: the name before the colon, or a path of one name; a PATH_EXPR without a path, which the parser does not make, has no name here *)
Definition lit_field_name (f : nat * tree) : option text :=
  match node_of (kind_eqb NAME_REF) f with
  | Some n => Some (name_string n)
  | None =>
      match node_of is_expr f with
      | Some e => if kind_eqb (kind_of (snd e)) PATH_EXPR then
                    match node_of (kind_eqb PATH) e with
                    | Some p => match node_of (kind_eqb PATH_SEGMENT) p with
                                | Some s => match node_of (kind_eqb NAME_REF) s with
                                            | Some n => match node_of (kind_eqb PATH) p with None => Some (name_string n) | Some _ => None end
                                            | None => None
                                            end
                                | None => None
                                end
                    | None => None
                    end
                  else None
      | None => None
      end
  end.
(** StructPatField::field_kind and field_name: struct_pat_field.rs:18-52 *)
Definition pat_field_name (f : nat * tree) : option text :=
  match node_of (kind_eqb NAME_REF) f with
  | Some n => Some (name_string n)
  | None => match node_of (kind_eqb IDENT_PAT) f with
            | Some i => option_map name_string (node_of (kind_eqb NAME) i)
            | None => None
            end
  end.
(** fields(): struct_lit.rs:10-14, struct_pat.rs:10-14 *)
Definition fields_in (list_kind field_kind : kind) (x : nat * tree) : list (nat * tree) :=
  match node_of (kind_eqb list_kind) x with Some l => nodes_of (kind_eqb field_kind) l | None => [] end.
(** named_field_names and tuple_fields: fields_owner.rs:13-34, 53-57; field_list is the first list of fields, generated/nodes.rs:7223.  Panic: a field without a name *)
Definition field_list (o : nat * tree) : option (nat * tree) := node_of (fun k => kind_eqb k NAMED_FIELD_LIST || kind_eqb k TUPLE_FIELD_LIST) o.
Fixpoint names_of (l : list (nat * tree)) : res (list text) :=
  match l with
  | [] => Ok []
  | f :: r => match node_of (kind_eqb NAME) f with Some n => bind (names_of r) (fun ns => Ok (name_string n :: ns)) | None => Panic end
  end.
Definition named_field_names (o : nat * tree) : res (list text) :=
  match field_list o with Some l => if kind_eqb (kind_of (snd l)) NAMED_FIELD_LIST then names_of (nodes_of (kind_eqb NAMED_FIELD) l) else Ok [] | None => Ok [] end.
Definition tuple_field_count (o : nat * tree) : nat :=
  match field_list o with Some l => if kind_eqb (kind_of (snd l)) TUPLE_FIELD_LIST then List.length (nodes_of (kind_eqb TUPLE_FIELD) l) else 0 | None => 0 end.
(** the names provided, and the loop over those declared: lines 21-33, 82-94 *)
Fixpoint filter_names (f : nat * tree -> option text) (l : list (nat * tree)) : list text := match l with [] => [] | x :: r => match f x with Some n => n :: filter_names f r | None => filter_names f r end end.
Fixpoint missing (declared provided : list text) : list text :=
  match declared with [] => [] | d :: r => if existsb (text_eqb d) provided then missing r provided else d :: missing r provided end.
(** missing_fields_in_struct_lit: lines 11-66; the range is that of the path *)
Definition missing_fields_in_struct_lit (rs : resolver) (x : nat * tree) : res (list diagnostic) :=
  match node_of (kind_eqb PATH) x with
  | None => Panic
  | Some p =>
      match owner_of rs (fst p) (snd p) with
      | None => Ok []
      | Some o => bind (named_field_names o) (fun ds =>
          match missing ds (filter_names lit_field_name (fields_in STRUCT_LIT_FIELD_LIST STRUCT_LIT_FIELD x)) with
          | [] => Ok []
          | ms => Ok [mkDiagnostic (range_of p) (MissingLitFields ms)]
          end)
      end
  end.
(** has_rest_pat: struct_pat.rs:16-18 *)
Definition has_rest_pat (x : nat * tree) : bool := existsb (fun f => match node_of (kind_eqb REST_PAT) f with Some _ => true | None => false end) (fields_in STRUCT_PAT_FIELD_LIST STRUCT_PAT_FIELD x).
(** missing_fields_in_struct_pat: lines 69-126 *)
Definition missing_fields_in_struct_pat (rs : resolver) (x : nat * tree) : res (list diagnostic) :=
  if has_rest_pat x then Ok [] else
  match node_of (kind_eqb PATH) x with
  | None => Panic
  | Some p =>
      match owner_of rs (fst p) (snd p) with
      | None => Ok []
      | Some o => bind (named_field_names o) (fun ds =>
          match missing ds (filter_names pat_field_name (fields_in STRUCT_PAT_FIELD_LIST STRUCT_PAT_FIELD x)) with
          | [] => Ok []
          | ms => Ok [mkDiagnostic (range_of x) (MissingPatFields (kind_of (snd o)) ms)]
          end)
      end
  end.
(** Pat::can_cast: generated/nodes.rs:8651-8668 *)
Definition is_pat : kind -> bool := any_of [IDENT_PAT; LITERAL_PAT; PAREN_PAT; PATH_PAT; RANGE_PAT; REST_PAT; STRUCT_PAT; TUPLE_PAT; TUPLE_STRUCT_PAT; UNIT_PAT; WILDCARD_PAT].
(** missing_fields_in_tuple_struct_pat: lines 129-161, has_rest_pat: tuple_struct_pat.rs:7-9 *)
Definition missing_fields_in_tuple_struct_pat (rs : resolver) (x : nat * tree) : res (list diagnostic) :=
  if existsb (fun p => kind_eqb (kind_of (snd p)) REST_PAT) (nodes_of is_pat x) then Ok [] else
  match node_of (kind_eqb PATH) x with
  | None => Panic
  | Some p =>
      match owner_of rs (fst p) (snd p) with
      | None => Ok []
      | Some o =>
          let declared := tuple_field_count o in
          let provided := List.length (nodes_of is_pat x) in
          if provided <? declared then Ok [mkDiagnostic (range_of x) (MissingTuplePatFields (kind_of (snd o)) declared provided)] else Ok []
      end
  end.
