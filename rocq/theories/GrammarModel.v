(** The grammar, function by function.  Source: crates/syntax/src/parse/grammar.rs and grammar/*.rs; file
    names in the citations below are relative to grammar/.

    The functions that call each other through cycles ([paths::path], [types::type_or_recover],
    [patterns::pattern], [expressions::expr_bp], [blocks::stmt], [attributes::attr_item],
    [use_item::use_speck]) are reached through a record of computations; [run] ties the knot a bounded number
    of times and GrammarTotal.v shows that a bound computed from the number of tokens is never exhausted. *)
From Coq Require Import String.
From Verif Require Import Base SyntaxKind ParserModel AddressModel TreeSinkProps GrammarBase.
Open Scope string_scope.
Open Scope nat_scope.
Open Scope gram_scope.

(** PathMode, paths.rs:32-36 *)
Inductive path_mode := PType | PExpr.
(** Restrictions, expressions.rs:368-372 *)
Record restr := mkR { forbid_structs : bool; prefer_stmt : bool }.
(** Restrictions::default() *)
Definition no_restr : restr := mkR false false.
(** an expression: its marker and whether it is BlockLike::Block *)
Definition ex : Type := cm * bool.

Record recs := mkRecs {
  r_path : option path_mode -> M bool;
  r_type : rset -> M bool;
  r_pattern : M bool;
  r_expr : restr -> nat -> M (option ex);
  r_stmt : M unit;
  r_attr_item : M bool;
  r_use_speck : bool -> M bool
}.

(** * Token sets *)
(** TOP_LEVEL_FIRST, grammar.rs:180-181 *)
Definition TOP_LEVEL_FIRST : list kind := [MODULE_KW; SCRIPT_KW; SPEC_KW; ADDRESS_KW].
(** paths.rs:19 *)
Definition PATH_FIRST : list kind := [IDENT; INT_NUMBER; UNDERSCORE].
(** types.rs:142-145 *)
Definition TYPE_FIRST : list kind := PATH_FIRST ++ [L_PAREN; L_BRACK; L_ANGLE; BANG; STAR; AMP] ++ [PIPE].
(** patterns.rs:269-284 *)
Definition PAT_STMT_FIRST : list kind := [IF_KW; WHILE_KW; LOOP_KW] ++ [LET_KW; SPEC_KW; USE_KW].
(** expressions/atom.rs:51-75 *)
Definition LITERAL_FIRST : list kind := [TRUE_KW; FALSE_KW; INT_NUMBER; AT; BYTE_STRING; HEX_STRING].
Definition KW_EXPR_FIRST : list kind :=
  [IF_KW; LOOP_KW; WHILE_KW; FOR_KW; RETURN_KW; CONTINUE_KW; BREAK_KW; MOVE_KW; COPY_KW; ABORT_KW; QUOTE_IDENT].
Definition ATOM_EXPR_FIRST : list kind := LITERAL_FIRST ++ PATH_FIRST ++ KW_EXPR_FIRST ++ [L_PAREN; L_CURLY; L_BRACK; PIPE; QUOTE_IDENT].
(** expressions.rs:374-377 *)
Definition EXPR_FIRST : list kind := ATOM_EXPR_FIRST ++ [AMP; STAR; BANG].
Definition EXPR_STMT_FIRST : list kind := EXPR_FIRST ++ [LET_KW].
(** items.rs:223-233 *)
Definition ITEM_KEYWORDS : list kind := [STRUCT_KW; FUN_KW; CONST_KW; SPEC_KW; FRIEND_KW; USE_KW].
(** items/fun.rs:259, 272-284 *)
Definition ITEM_BRACE_START : list kind := [L_ANGLE; L_PAREN; L_CURLY].
Definition function_modifier_kws : rset := rs_of [PUBLIC_KW; NATIVE_KW; FRIEND_KW; INLINE_KW].
(** items.rs:208-217 *)
Definition item_start_kws_only : rset := rs_union (rs_of ITEM_KEYWORDS) function_modifier_kws.
Definition item_start_rec_set : rset := rs_union (rs_union (rs_of ITEM_KEYWORDS) (rs_kw "enum")) function_modifier_kws.
Definition plus_ts (rs : rset) (l : list kind) : rset := rs_union rs (rs_of l).
(** items/adt.rs:162-167 *)
Definition adt_name_recovery : rset := rs_union (plus_ts item_start_rec_set [L_ANGLE; L_CURLY]) (rs_kw "has").
(** items.rs:74-78 *)
Definition vis_modifier_item_start : rset := rs_union (rs_of [FUN_KW; STRUCT_KW; CONST_KW]) (rs_kw "enum").
(** items.rs:219-221 *)
Definition at_stmt_start : rset := rs_of PAT_STMT_FIRST.
(** specs/schemas.rs:94 *)
Definition INCLUDE_SCHEMA_RECOVERY_SET : list kind := [SEMICOLON; R_CURLY].

(** * Predicates *)
(** is_path_start, paths.rs:21-30 *)
Definition is_path_start : test := fun e p =>
  (t_cur INT_NUMBER e p && nth_at p 1 COLON_COLON) || t_cur IDENT e p || t_cur UNDERSCORE e p.
(** is_literal_pat_start, atom.rs:47-49 *)
Definition is_literal_pat_start : test := fun e p => (t_at MINUS e p && t_nth 1 INT_NUMBER e p) || t_ts LITERAL_FIRST e p.
(** is_at_quant_kw, specs/quants.rs:19-26 *)
Definition is_at_quant_kw : test := fun e p =>
  (t_kw "forall" e p || t_kw "exists" e p || t_kw "choose" e p) && (nth_at p 1 COLON || nth_at p 1 IDENT).
(** is_assert_ident, atom.rs:141-148 *)
Definition is_assert_ident : test := fun e p =>
  t_kwi "assert" e p || t_kwi "assert_eq" e p || t_kwi "assert_ne" e p ||
  t_kwi "debug_assert" e p || t_kwi "debug_assert_eq" e p || t_kwi "debug_assert_ne" e p.
(** on_function_modifiers_start, items/fun.rs:234-247; on_visibility_modifier_start, l249-257 *)
Definition on_function_modifiers_start : test := fun e p =>
  t_cur NATIVE_KW e p || t_cur INLINE_KW e p ||
  (t_cur IDENT e p && t_kw "entry" e p && negb (t_nth_ts 1 ITEM_BRACE_START e p)).
Definition on_visibility_modifier_start : test := fun e p =>
  t_cur PUBLIC_KW e p || t_cur FRIEND_KW e p ||
  (t_cur IDENT e p && t_kw "package" e p && negb (t_nth_ts 1 ITEM_BRACE_START e p)).

(** current_op, expressions.rs:382-436 *)
Definition op_of (p : parser) : nat * kind :=
  match current p with
  | EQ => (1, EQ)
  | R_ANGLE => if nth_at p 0 SHR_EQ then (1, SHR_EQ) else if nth_at p 0 GT_EQ then (6, GT_EQ)
               else if nth_at p 0 SHR then (10, SHR) else (6, R_ANGLE)
  | L_ANGLE => if nth_at p 0 LESS_IMPLIES then (1, LESS_IMPLIES) else if nth_at p 0 SHL_EQ then (1, SHL_EQ)
               else if nth_at p 0 LT_EQ then (6, LT_EQ) else if nth_at p 0 SHL then (10, SHL) else (6, L_ANGLE)
  | IMPLIES => (1, IMPLIES) | PLUS_EQ => (1, PLUS_EQ) | MINUS_EQ => (1, MINUS_EQ) | STAR_EQ => (1, STAR_EQ)
  | SLASH_EQ => (1, SLASH_EQ) | PIPE_EQ => (1, PIPE_EQ) | CARET_EQ => (1, CARET_EQ) | AMP_EQ => (1, AMP_EQ)
  | PERCENT_EQ => (1, PERCENT_EQ)
  | AS_KW => (2, AS_KW)
  | DOT_DOT => (3, DOT_DOT)
  | PIPE => if nth_at p 0 PIPE_PIPE then (4, PIPE_PIPE) else (7, PIPE)
  | AMP => if nth_at p 0 AMP_AMP then (5, AMP_AMP) else (9, AMP)
  | NOT_EQ => (6, NOT_EQ) | EQ_EQ => (6, EQ_EQ)
  | CARET => (8, CARET)
  | PLUS => (11, PLUS) | MINUS => (11, MINUS)
  | PERCENT => (12, PERCENT) | SLASH => (12, SLASH) | STAR => (12, STAR)
  | _ => (0, AT)
  end.
Definition current_op : M (nat * kind) := fun e p =>
  Ret (if t_cur IDENT e p && t_kw "is" e p then (2, IS_KW) else op_of p) p.

(** * Names and addresses, grammar.rs:156-265 *)
Definition value_address : M unit := assert_ (t_at INT_NUMBER) ;; node VALUE_ADDRESS (bump INT_NUMBER) ;; skip.
Definition any_address : M unit :=
  IF at_ INT_NUMBER THEN value_address ELSE
  IF at_ IDENT THEN (node NAMED_ADDRESS (bump IDENT) ;; skip) ELSE err "expected address reference".
Definition name_or_recover (extra : rset) : M bool :=
  IF at_ IDENT THEN
    (outer <- outer_rs ;;
     IF rs_test (rs_union outer extra) THEN (err "expected identifier" ;; ret false) ELSE
     (node NAME (bump IDENT) ;; ret true))
  ELSE (error_and_recover "expected identifier" extra ;; ret false).
Definition name : M bool := name_or_recover rs_empty.
Definition name_ref_or_recover : M bool :=
  IF at_ IDENT THEN
    (outer <- outer_rs ;;
     IF rs_test outer THEN (err "expected identifier" ;; ret false) ELSE
     (node NAME_REF (bump IDENT) ;; ret true))
  ELSE (error_and_recover "expected identifier" rs_empty ;; ret false).
Definition name_ref : M bool :=
  IF at_ IDENT THEN (node NAME_REF (bump IDENT) ;; ret true) ELSE (error_and_bump "expected identifier" ;; ret false).
Definition ability : M bool :=
  IF at_ IDENT THEN (node ABILITY (bump IDENT) ;; ret true) ELSE ret false.
Definition abilities_list : M unit :=
  assert_ (t_kwi "has") ;; node ABILITY_LIST (remap HAS_KW ;; delimited ability COMMA "expected ability" None) ;; skip.

Section Grammar.
Variable R : recs.
Definition path := r_path R.
Definition type_or_recover := r_type R.
Definition pattern := r_pattern R.
Definition expr_bp := r_expr R.
Definition stmt := r_stmt R.
Definition attr_item := r_attr_item R.
Definition use_speck := r_use_speck R.

(** type_, types.rs:38-40 *)
Definition type_ : M bool := type_or_recover rs_empty.
(** path_type, types.rs:17-30 *)
Definition path_type : M bool :=
  IF ask is_path_start THEN
    ('(_, b) <- marked (is_path <- path (Some PType) ;;
                        if (is_path : bool) then ret (Complete PATH_TYPE, true) else ret (Abandon, false)) ;;
     ret b)
  ELSE ret false.
(** type_annotation, types.rs:32-36 *)
Definition type_annotation : M unit := assert_ (t_at COLON) ;; bump COLON ;; type_ ;; skip.

(** * Type arguments, type_args.rs *)
(** type_arg, l89-116 *)
Definition type_arg (is_type : bool) : M bool :=
  '(_, b) <- marked (
    IF cur IDENT THEN (path_type ;; ret (Complete TYPE_ARG, true)) ELSE
    IF at_ts TYPE_FIRST THEN
      (ok <- with_ts (COMMA :: if is_type then [R_ANGLE] else []) type_ ;;
       if negb is_type && negb ok then ret (Abandon, false) else ret (Complete TYPE_ARG, true))
    ELSE ret (Abandon, false)) ;;
  ret b.
(** opt_type_arg_list_for_type, l23-41 *)
Definition opt_type_arg_list_for_type : M unit :=
  IF at_ L_ANGLE THEN
    (node TYPE_ARG_LIST (
       bump L_ANGLE ;;
       with_ts [R_ANGLE] (delimited (type_arg true) COMMA "expected type argument" (Some R_ANGLE)) ;;
       expect R_ANGLE) ;; skip)
  ELSE skip.
(** opt_type_arg_list_for_expr, l43-84; [first] is what happens between the start of the marker and the '<' *)
Definition type_args_rest (first : M unit) : M bool :=
  '(_, b) <- marked (
    first ;;
    bump L_ANGLE ;;
    has_error <- iterate_to_EOF [R_ANGLE; L_PAREN; L_CURLY] (fun has_error =>
      ok <- type_arg false ;;
      if negb ok then ret (false, true) else
      IF eat_ COMMA THEN ret (true, has_error) ELSE
      IF at_ts PATH_FIRST THEN (err "expected ','" ;; ret (true, true)) ELSE ret (false, has_error)) false ;;
    if (has_error : bool) then ret (Rollback, false) else
    IF eat_ R_ANGLE THEN ret (Complete TYPE_ARG_LIST, true) ELSE ret (Rollback, false)) ;;
  ret b.
Definition opt_type_arg_list_for_expr (colon_colon_required : bool) : M bool :=
  IF ask (t_and (t_at COLON_COLON) (t_nth_at 1 L_ANGLE)) THEN type_args_rest (bump COLON_COLON) ELSE
  IF at_ L_ANGLE THEN
    IF ask (t_or (fun _ _ => negb colon_colon_required) t_no_ws) THEN type_args_rest skip ELSE ret true
  ELSE ret true.
(** opt_path_type_arg_list, l14-21 *)
Definition opt_path_type_arg_list (mode : path_mode) : M unit :=
  match mode with PType => opt_type_arg_list_for_type | PExpr => opt_type_arg_list_for_expr false ;; skip end.

(** * Paths, paths.rs *)
(** path_segment, l63-99 *)
Definition path_segment (mode : option path_mode) (is_first : bool) : M bool :=
  '(_, b) <- marked (
    IF cur IDENT THEN
      (name_ref ;; match mode with Some m => opt_path_type_arg_list m | None => skip end ;; ret (Complete PATH_SEGMENT, true)) ELSE
    IF cur UNDERSCORE THEN (node NAME_REF (remap IDENT) ;; ret (Complete PATH_SEGMENT, true)) ELSE
    IF ask (t_and (t_cur INT_NUMBER) (fun _ _ => is_first)) THEN (node PATH_ADDRESS value_address ;; ret (Complete PATH_SEGMENT, true)) ELSE
    (error_and_recover "expected identifier" (plus_ts item_start_rec_set PAT_STMT_FIRST) ;; ret (Abandon, false))) ;;
  ret b.
(** the loop of path, l46-58 *)
Definition path_loop (mode : option path_mode) : cm -> M unit :=
  loop (fun c =>
    IF at_ COLON_COLON THEN
      IF nth_at_ 1 L_CURLY THEN ret (inr tt) ELSE
      ('(c', _) <- preceded c (bump COLON_COLON ;; path_segment mode false ;; ret (PATH, tt)) ;; ret (inl c'))
    ELSE ret (inr tt)).
(** path, l38-60 *)
Definition path_body (mode : option path_mode) : M bool :=
  '(c, _) <- marked (
     ok <- path_segment mode true ;;
     if (ok : bool) then ret (Complete PATH, tt) else ret (Abandon, tt)) ;;
  match c with Some c => path_loop mode c ;; ret true | None => ret false end.

(** * Types, types.rs *)
(** type_params.rs:61-77: colon_ability_bound_list, ability_bound_list *)
Definition colon_ability_bound_list : M unit :=
  assert_ (t_at COLON) ;; node ABILITY_BOUND_LIST (bump COLON ;; delimited ability PLUS "expected ability" None) ;; skip.
Definition ability_bound_list : M unit :=
  node ABILITY_BOUND_LIST (loop (fun _ : unit =>
    ok <- ability ;;
    if (ok : bool) then IF eat_ PLUS THEN ret (inl tt) ELSE ret (inr tt) else ret (inr tt)) tt) ;; skip.
(** ref_type, l58-65 *)
Definition ref_type : M unit := assert_ (t_at AMP) ;; node REF_TYPE (bump AMP ;; eat_ MUT_KW ;; type_) ;; skip.
(** lambda_type, l67-106 *)
Definition lambda_type : M unit :=
  assert_ (t_at PIPE) ;;
  marked (
    bump PIPE ;;
    IF at_ COMMA THEN ret (Rollback, tt) ELSE
    (delimited (
       marked (is_type <- type_or_recover (rs_of [COMMA; PIPE]) ;;
               ret (Complete (if (is_type : bool) then LAMBDA_TYPE_PARAM else ERROR), tt)) ;; ret true)
       COMMA "expected type" (Some PIPE) ;;
     IF eat_ PIPE THEN
       ((IF ask (t_and (t_not (t_kwi "has")) (t_ts TYPE_FIRST)) THEN (type_ ;; skip) ELSE skip) ;;
        (IF kwi "has" THEN (node LAMBDA_TYPE_ABILITY_LIST (remap HAS_KW ;; ability_bound_list) ;; skip) ELSE skip) ;;
        ret (Complete LAMBDA_TYPE, tt))
     ELSE ret (Rollback, tt))) ;;
  skip.
(** paren_or_tuple_or_unit_type, l108-140; the state is n_types (up to two) and trailing_comma *)
Definition paren_or_tuple_or_unit_type : M unit :=
  assert_ (t_at L_PAREN) ;;
  marked (
    bump L_PAREN ;;
    '(n, comma) <- iterate_to_EOF [R_PAREN] (fun s : nat * bool =>
       type_ ;; IF eat_ COMMA THEN ret (true, (S (fst s), true)) ELSE ret (false, (S (fst s), false))) (0, false) ;;
    expect R_PAREN ;;
    ret (Complete (if (n =? 1) && negb comma then PAREN_TYPE else if n =? 0 then UNIT_TYPE else TUPLE_TYPE), tt)) ;;
  skip.
(** type_or_recover, l42-56 *)
Definition type_body (extra : rset) : M bool :=
  IF cur L_PAREN THEN (paren_or_tuple_or_unit_type ;; ret true) ELSE
  IF cur AMP THEN (ref_type ;; ret true) ELSE
  IF cur PIPE THEN (lambda_type ;; ret true) ELSE
  IF ask is_path_start THEN path_type ELSE
  (error_and_recover "expected type" extra ;; ret false).

(** * Type parameters, type_params.rs *)
(** type_param, l34-59 *)
Definition type_param : M bool :=
  '(_, b) <- marked (
    has_phantom <- kwi "phantom" ;;
    (if (has_phantom : bool) then remap PHANTOM_KW else skip) ;;
    has_name <- name ;;
    if negb has_name && has_phantom then ret (Complete TYPE_PARAM, false) else
    (if (has_name : bool) then IF at_ COLON THEN colon_ability_bound_list ELSE skip else skip) ;;
    if has_name || has_phantom then ret (Complete TYPE_PARAM, true) else ret (Abandon, false)) ;;
  ret b.
(** opt_type_param_list, type_param_list, l16-32 *)
Definition opt_type_param_list : M unit :=
  IF at_ L_ANGLE THEN
    (node TYPE_PARAM_LIST (
       bump L_ANGLE ;;
       with_ts [R_ANGLE] (delimited type_param COMMA "expected type parameter" (Some R_ANGLE)) ;;
       expect R_ANGLE) ;; skip)
  ELSE skip.

(** * Attributes, attributes.rs *)
(** attr_item_list, l68-72 *)
Definition attr_item_list (lparen rparen : kind) : M unit :=
  bump lparen ;; delimited attr_item COMMA "expected attribute item" (Some rparen) ;; expect rparen ;; skip.
(** attr, l24-37 *)
Definition attr : M cm :=
  assert_ (t_at POUND) ;;
  node ATTR (bump POUND ;; IF at_ L_BRACK THEN attr_item_list L_BRACK R_BRACK ELSE err "expected `[`").
(** attrs, l16-22; of the markers it returns only the last one is ever looked at (blocks.rs:77-79) *)
Definition attrs : M (option cm) :=
  loop (fun last => IF at_ POUND THEN (c <- attr ;; ret (inl (Some c))) ELSE ret (inr last)) None.

(** * Expressions, basics *)
Definition is_some {A} (x : option A) : bool := match x with Some _ => true | None => false end.
(** expr, expressions.rs:25-32 *)
Definition expr : M bool := r <- expr_bp no_restr 1 ;; ret (is_some r).
(** expect_expr, specs/predicates.rs:223-227 *)
Definition expect_expr : M unit := IF expr THEN skip ELSE err "expected expression".
(** opt_initializer_expr, expressions.rs:352-358 *)
Definition opt_initializer_expr : M unit := IF eat_ EQ THEN expect_expr ELSE skip.
(** initializer_expr, items.rs:167-178 *)
Definition initializer_expr : M unit :=
  marked (IF expect EQ THEN (expect_expr ;; ret (Complete INITIALIZER, tt)) ELSE ret (Abandon, tt)) ;; skip.
(** attr_item, attributes.rs:39-66 *)
Definition attr_item_body : M bool :=
  node ATTR_ITEM (
    path None ;;
    IF cur EQ THEN initializer_expr ELSE
    IF cur L_PAREN THEN (node ATTR_ITEM_LIST (attr_item_list L_PAREN R_PAREN) ;; skip) ELSE skip) ;;
  ret true.
(** value_arg_list, expressions.rs:303-331 *)
Definition value_arg_list : M unit :=
  assert_ (t_at L_PAREN) ;;
  node VALUE_ARG_LIST (
    bump L_PAREN ;;
    delimited (
      '(_, b) <- marked (
        IF expr THEN ret (Complete VALUE_ARG, true) ELSE
        IF at_ COMMA THEN ret (Complete VALUE_ARG, false) ELSE ret (Abandon, false)) ;;
      ret b) COMMA "expected argument" (Some R_PAREN) ;;
    expect R_PAREN) ;;
  skip.

(** * Patterns, patterns.rs *)
(** literal, expressions/atom.rs:17-45 *)
Definition literal : M (option cm) :=
  '(c, bad) <- marked (
    IF ask (t_and (t_cur INT_NUMBER) (t_nth_at 1 COLON_COLON)) THEN ret (Abandon, false) ELSE
    IF cur AT THEN (node ADDRESS_LIT (bump AT ;; any_address) ;; ret (Complete LITERAL, false)) ELSE
    IF at_ts [INT_NUMBER; BYTE_STRING; HEX_STRING; TRUE_KW; FALSE_KW] THEN (bump_any_ ;; ret (Complete LITERAL, false)) ELSE
    IF cur BAD_CHARACTER THEN ret (Abandon, true) ELSE ret (Abandon, false)) ;;
  if (bad : bool) then error_and_bump "unexpected character" ;; ret None else ret c.
(** literal_pat, l59-64 *)
Definition literal_pat : M cm := node LITERAL_PAT (eat_ MINUS ;; literal).
(** wildcard_pat, l193-198; ident_pat, l254-258 *)
Definition wildcard_pat : M unit := assert_ (t_at UNDERSCORE) ;; node WILDCARD_PAT (bump UNDERSCORE) ;; skip.
Definition ident_pat : M unit := node IDENT_PAT name ;; skip.
(** ident_pat_or_recover, l82-92 *)
Definition ident_pat_or_recover : M bool :=
  IF cur IDENT THEN (ident_pat ;; ret true) ELSE
  IF cur UNDERSCORE THEN (wildcard_pat ;; ret true) ELSE
  (error_and_recover "expected ident" rs_empty ;; ret false).
(** tuple_pat_fields, l118-125 *)
Definition tuple_pat_fields : M unit :=
  assert_ (t_at L_PAREN) ;; bump L_PAREN ;; delimited pattern COMMA "expected pattern" (Some R_PAREN) ;; expect R_PAREN ;; skip.
(** struct_pat_field, l127-152 *)
Definition struct_pat_field : M bool :=
  IF ask (t_and (t_cur IDENT) (t_nth 1 COLON)) THEN (name_ref ;; bump COLON ;; pattern ;; ret true) ELSE
  IF cur IDENT THEN (ident_pat ;; ret true) ELSE
  IF cur UNDERSCORE THEN (wildcard_pat ;; ret true) ELSE
  IF cur DOT_DOT THEN (node REST_PAT (bump DOT_DOT) ;; ret true) ELSE
  (error_and_recover "expected identifier" rs_empty ;; ret false).
(** struct_pat_field_list, l154-191 *)
Definition struct_pat_field_list : M unit :=
  assert_ (t_at L_CURLY) ;;
  node STRUCT_PAT_FIELD_LIST (
    bump L_CURLY ;;
    with_ts [R_CURLY] (delimited (
      '(_, b) <- marked (
        IF cur R_CURLY THEN ret (Abandon, true) ELSE
        (is_field <- struct_pat_field ;; ret (Complete STRUCT_PAT_FIELD, is_field))) ;;
      ret b) COMMA "expected ident" (Some R_CURLY)) ;;
    expect R_CURLY) ;;
  skip.
(** path_pat, l66-80 *)
Definition path_pat : M unit :=
  marked (
    path (Some PType) ;;
    IF cur L_PAREN THEN (tuple_pat_fields ;; ret (Complete TUPLE_STRUCT_PAT, tt)) ELSE
    IF cur L_CURLY THEN (struct_pat_field_list ;; ret (Complete STRUCT_PAT, tt)) ELSE
    ret (Complete PATH_PAT, tt)) ;;
  skip.
(** tuple_or_unit_or_paren_pat, l214-252; the state is has_comma and has_pat *)
Definition tuple_or_unit_or_paren_pat : M unit :=
  assert_ (t_at L_PAREN) ;;
  marked (
    bump L_PAREN ;;
    outer <- outer_rs ;;
    '(has_comma, has_pat) <- iterate_to_EOF [R_PAREN] (fun s : bool * bool =>
      found <- with_ts [COMMA; R_PAREN] pattern ;;
      let has_pat := if (found : bool) then true else snd s in
      IF rs_test outer THEN ret (false, (fst s, has_pat)) ELSE
      IF at_ R_PAREN THEN ret (true, (fst s, has_pat)) ELSE
      IF expect COMMA THEN ret (true, (true, has_pat)) ELSE ret (true, (fst s, has_pat))) (false, false) ;;
    expect R_PAREN ;;
    ret (Complete (if negb has_pat && negb has_comma then UNIT_PAT else if has_pat && negb has_comma then PAREN_PAT else TUPLE_PAT), tt)) ;;
  skip.
(** pattern, l17-57 *)
Definition pattern_body : M bool :=
  IF ask (t_and (t_cur INT_NUMBER) (t_nth_at 1 COLON_COLON)) THEN (path_pat ;; ret true) ELSE
  IF cur IDENT THEN
    (IF ask (t_nth_ts 1 [COLON_COLON; L_PAREN; L_CURLY; L_ANGLE]) THEN (path_pat ;; ret true) ELSE (ident_pat ;; ret true)) ELSE
  IF ask is_literal_pat_start THEN
    (c <- literal_pat ;;
     IF at_ DOT_DOT THEN
       (preceded c (bump DOT_DOT ;; (IF ask is_literal_pat_start THEN (literal_pat ;; skip) ELSE skip) ;; ret (RANGE_PAT, tt)) ;; ret true)
     ELSE ret true) ELSE
  IF cur DOT_DOT THEN
    (marked (bump DOT_DOT ;;
             IF ask is_literal_pat_start THEN (literal_pat ;; ret (Complete RANGE_PAT, tt)) ELSE ret (Complete REST_PAT, tt)) ;; ret true) ELSE
  IF cur UNDERSCORE THEN (wildcard_pat ;; ret true) ELSE
  IF cur L_PAREN THEN (tuple_or_unit_or_paren_pat ;; ret true) ELSE
  (error_and_recover "expected pattern" rs_empty ;; ret false).

(** * Parameters *)
(** param, params.rs:21-31; fun_param_list, l11-19 *)
Definition param : M bool :=
  node PARAM (
    IF ident_pat_or_recover THEN
      IF expect_msg COLON "missing type annotation" THEN (with_ts [COMMA] type_ ;; skip) ELSE skip
    ELSE skip) ;;
  ret true.
Definition fun_param_list : M unit :=
  node PARAM_LIST (
    bump L_PAREN ;;
    with_ts [R_PAREN] (delimited param COMMA "expected value parameter" (Some R_PAREN)) ;;
    expect R_PAREN) ;;
  skip.
(** lambda_param, lambdas.rs:33-43; lambda_param_list, l14-31 *)
Definition lambda_param : M bool :=
  node LAMBDA_PARAM (
    IF ident_pat_or_recover THEN IF at_ COLON THEN type_annotation ELSE skip ELSE skip) ;;
  ret true.
Definition lambda_param_list : M bool :=
  '(_, b) <- marked (
    bump PIPE ;;
    IF at_ COMMA THEN ret (Abandon, false) ELSE
    (delimited lambda_param COMMA "expected ident" (Some PIPE) ;;
     IF eat_ PIPE THEN ret (Complete LAMBDA_PARAM_LIST, true) ELSE ret (Rollback, false))) ;;
  ret b.

(** * Blocks, expressions/blocks.rs *)
(** stmt_list, l64-73; block_expr, l40-52; unexpected_block, l54-62 *)
Definition stmt_list : M unit :=
  iterate_to_EOF [R_CURLY] (fun _ : unit =>
    IF at_ SEMICOLON THEN (bump SEMICOLON ;; ret (true, tt)) ELSE (with_ts [R_CURLY] stmt ;; ret (true, tt))) tt.
Definition block_expr : M cm :=
  assert_ (t_at L_CURLY) ;; reset_rs (node BLOCK_EXPR (bump L_CURLY ;; stmt_list ;; expect R_CURLY)).
Definition unexpected_block (s : string) : M unit :=
  assert_ (t_at L_CURLY) ;; node ERROR (err s ;; bump L_CURLY ;; stmt_list ;; eat_ R_CURLY) ;; skip.
(** inline_expr, atom.rs:397-402; block_or_inline_expr, blocks.rs:32-38 *)
Definition inline_expr : M unit := assert_ (t_not (t_at L_CURLY)) ;; node INLINE_EXPR expr ;; skip.
Definition block_or_inline_expr : M unit := IF at_ L_CURLY THEN (block_expr ;; skip) ELSE inline_expr.
(** spec_block_expr, opt_spec_block_expr, specs.rs:19-35 *)
Definition spec_block_expr : M cm :=
  assert_ (t_at SPEC_KW) ;;
  node SPEC_BLOCK_EXPR (bump SPEC_KW ;; IF at_ L_CURLY THEN (with_sk SSpec block_expr ;; skip) ELSE err "expected a block").
Definition opt_spec_block_expr : M unit := IF at_ SPEC_KW THEN (spec_block_expr ;; skip) ELSE skip.

(** * Quantifiers, specs/quants.rs *)
(** quant_binding, l97-118; quant_binding_list, l83-95 *)
Definition quant_binding : M bool :=
  IF kwi "where" THEN ret false ELSE
  ('(_, b) <- marked (
     ident_pat_or_recover ;;
     IF cur COLON THEN (type_annotation ;; ret (Complete QUANT_BINDING, true)) ELSE
     IF cur_kw "in" THEN (remap IN_KW ;; expect_expr ;; ret (Complete QUANT_BINDING, true)) ELSE
     ret (Rollback, false)) ;;
   ret b).
Definition quant_binding_list (extra : rset) : M unit :=
  node QUANT_BINDING_LIST (
    with_rs (rs_union (rs_union (rs_of [SEMICOLON; L_CURLY; COLON]) (rs_kw "where")) extra)
      (delimited quant_binding COMMA "expected quant binding" None)) ;;
  skip.
(** quant_trigger_list, l120-130; opt_where_expr, l132-140; weight, l142-164 *)
Definition quant_trigger_list : M unit :=
  assert_ (t_at L_CURLY) ;;
  node QUANT_TRIGGER_LIST (
    bump L_CURLY ;; reset_rs (delimited expr COMMA "expected expr" (Some R_CURLY)) ;; expect R_CURLY) ;;
  skip.
Definition opt_where_expr : M unit :=
  IF kwi "where" THEN (node WHERE_EXPR (remap WHERE_KW ;; expect_expr) ;; skip) ELSE skip.
Definition weight : M bool :=
  assert_ (t_at L_BRACK) ;;
  '(_, b) <- marked (
    bump L_BRACK ;;
    with_ts [R_BRACK] (
      IF kwi "weight" THEN
        (remap WEIGHT_KW ;;
         expect EQ ;;
         IF expr THEN (expect R_BRACK ;; ret (Complete WEIGHT, true)) ELSE (err "expected expression" ;; ret (Abandon, false)))
      ELSE (err "expected 'weight'" ;; ret (Abandon, false)))) ;;
  ret b.
(** forall_expr, l28-46; exists_expr, l48-66; the test of the keyword is in [lhs] *)
Definition quant_expr (kw k : kind) : M cm :=
  node k (
    remap kw ;;
    quant_binding_list (rs_of [L_BRACK]) ;;
    (IF at_ L_CURLY THEN quant_trigger_list ELSE skip) ;;
    (IF at_ L_BRACK THEN (weight ;; skip) ELSE skip) ;;
    opt_where_expr ;;
    IF expect COLON THEN expect_expr ELSE skip).
(** choose_expr, l68-81 *)
Definition choose_expr : M cm :=
  node CHOOSE_EXPR (
    remap CHOOSE_KW ;;
    (IF kwi "min" THEN remap MIN_KW ELSE skip) ;;
    quant_binding ;;
    opt_where_expr).

(** * Atoms, expressions/atom.rs *)
(** struct_lit_field_list, expressions.rs:114-145 *)
Definition struct_lit_field_list : M unit :=
  assert_ (t_at L_CURLY) ;;
  node STRUCT_LIT_FIELD_LIST (
    bump L_CURLY ;;
    iterate_to_EOF [R_CURLY] (fun _ : unit =>
      marked (
        IF ask (t_and (t_cur IDENT) (t_nth_at 1 COLON)) THEN
          (name_ref ;; bump COLON ;; expect_expr ;; ret (Complete STRUCT_LIT_FIELD, tt)) ELSE
        IF cur IDENT THEN (expr ;; ret (Complete STRUCT_LIT_FIELD, tt)) ELSE
        (error_and_bump "expected identifier" ;; ret (Abandon, tt))) ;;
      (IF at_ R_CURLY THEN skip ELSE (expect COMMA ;; skip)) ;;
      ret (true, tt)) tt ;;
    expect R_CURLY) ;;
  skip.
(** the completed marker of a [marked] whose body always completes *)
Definition the_cm (x : option cm) : M cm := match x with Some c => ret c | None => crash end.
(** path_expr, l150-161 *)
Definition path_expr : M cm :=
  '(c, _) <- marked (
    path (Some PExpr) ;;
    IF cur L_CURLY THEN (struct_lit_field_list ;; ret (Complete STRUCT_LIT, tt)) ELSE ret (Complete PATH_EXPR, tt)) ;;
  the_cm c.
(** vector_lit_expr, l163-176 *)
Definition vector_lit_expr : M cm :=
  node VECTOR_LIT_EXPR (
    bump IDENT ;;
    opt_path_type_arg_list PType ;;
    IF at_ L_BRACK THEN
      (bump L_BRACK ;; delimited expr COMMA "expected expression" (Some R_BRACK) ;; expect R_BRACK ;; skip)
    ELSE error_and_recover "expected '['" (rs_of EXPR_STMT_FIRST)).
(** top_level_expr_in_stmt, expressions.rs:360-366; match_arm, atom.rs:360-387; match_arm_list, l345-358 *)
Definition top_level_expr_in_stmt : M (option ex) := expr_bp (mkR false true) 1.
Definition match_arm : M unit :=
  marked (
    with_ts [FAT_ARROW; R_CURLY] pattern ;;
    (IF at_ IF_KW THEN (node MATCH_GUARD (bump IF_KW ;; expr) ;; skip) ELSE skip) ;;
    IF at_ FAT_ARROW THEN
      (bump FAT_ARROW ;;
       r <- top_level_expr_in_stmt ;;
       let is_block := match r with Some (_, b) => b | None => false end in
       IF eat_ COMMA THEN ret (Complete MATCH_ARM, tt) ELSE
       IF ask (t_and (fun _ _ => negb is_block) (t_not (t_at R_CURLY))) THEN (err "expected `,`" ;; ret (Complete MATCH_ARM, tt)) ELSE
       ret (Complete MATCH_ARM, tt))
    ELSE (error_and_recover "expected '=>'" rs_empty ;; ret (Abandon, tt))) ;;
  skip.
Definition match_arm_list : M unit :=
  assert_ (t_at L_CURLY) ;;
  node MATCH_ARM_LIST (
    eat_ L_CURLY ;;
    reset_rs (iterate_to_EOF [R_CURLY] (fun _ : unit => match_arm ;; ret (true, tt)) tt) ;;
    expect R_CURLY) ;;
  skip.
(** match_expr, l178-194 *)
Definition match_expr : M (option cm) :=
  '(c, _) <- marked (
    remap MATCH_KW ;;
    bump L_PAREN ;;
    expr ;;
    expect R_PAREN ;;
    IF at_ L_CURLY THEN (match_arm_list ;; ret (Complete MATCH_EXPR, tt)) ELSE ret (Rollback, tt)) ;;
  ret c.
(** assert_macro_expr, l196-208 *)
Definition assert_macro_expr : M cm :=
  assert_ (t_at IDENT) ;;
  node ASSERT_MACRO_EXPR (
    bump IDENT ;; bump BANG ;; IF at_ L_PAREN THEN value_arg_list ELSE err "expected argument list").
(** paren_or_tuple_or_annotated_expr, l217-264; the state is outer, saw_comma, saw_expr, saw_type_annotation *)
Definition paren_or_tuple_or_annotated_expr : M cm :=
  assert_ (t_at L_PAREN) ;;
  '(c, _) <- marked (
    bump L_PAREN ;;
    IF at_ R_PAREN THEN (bump R_PAREN ;; ret (Complete UNIT_EXPR, tt)) ELSE
    ('(outer, saw_comma, saw_expr, saw_ann) <- iterate_to_EOF [R_PAREN] (fun s : bool * bool * bool * bool =>
       let '(outer, saw_comma, _, saw_ann) := s in
       IF expr THEN
         (IF ask (t_and (fun _ _ => outer) (t_at COLON)) THEN (type_annotation ;; ret (false, (outer, saw_comma, true, true))) ELSE
          IF at_ R_PAREN THEN ret (true, (false, saw_comma, true, saw_ann)) ELSE
          (expect COMMA ;; ret (true, (false, true, true, saw_ann))))
       ELSE ret (false, (outer, saw_comma, true, saw_ann))) (true, false, false, false) ;;
     expect R_PAREN ;;
     ret (Complete (if (saw_ann : bool) then ANNOTATED_EXPR else if saw_expr && negb saw_comma then PAREN_EXPR else TUPLE_EXPR), tt))) ;;
  the_cm c.
(** condition, l331-343 *)
Definition condition : M unit :=
  node CONDITION (expect L_PAREN ;; expr_bp (mkR true false) 1 ;; expect R_PAREN) ;; skip.
(** if_expr, l266-278 *)
Definition if_expr : M cm :=
  assert_ (t_at IF_KW) ;;
  node IF_EXPR (
    bump IF_KW ;; condition ;; block_or_inline_expr ;;
    IF at_ ELSE_KW THEN (bump ELSE_KW ;; block_or_inline_expr) ELSE skip).
(** label_decl, l280-286 *)
Definition label_decl : M unit :=
  assert_ (t_and (t_at QUOTE_IDENT) (t_nth 1 COLON)) ;; node LABEL_DECL (bump QUOTE_IDENT ;; bump COLON) ;; skip.
(** loop_expr, l288-294; for_expr, l296-303; while_expr, l321-329: what follows the start of the marker *)
Definition loop_rest : M closing := assert_ (t_at LOOP_KW) ;; bump LOOP_KW ;; block_or_inline_expr ;; ret (Complete LOOP_EXPR).
(** for_condition, l305-319 *)
Definition for_condition : M unit :=
  node FOR_CONDITION (
    expect L_PAREN ;;
    ident_pat_or_recover ;;
    (IF kwi "in" THEN (remap IN_KW ;; expr ;; skip) ELSE error_and_recover "expected 'in'" (rs_of (EXPR_FIRST ++ [R_PAREN]))) ;;
    opt_spec_block_expr ;;
    expect R_PAREN) ;;
  skip.
Definition for_rest : M closing := assert_ (t_kwi "for") ;; remap FOR_KW ;; for_condition ;; block_or_inline_expr ;; ret (Complete FOR_EXPR).
Definition while_rest : M closing :=
  assert_ (t_at WHILE_KW) ;; bump WHILE_KW ;; condition ;; block_or_inline_expr ;; opt_spec_block_expr ;; ret (Complete WHILE_EXPR).
Definition with_marker (rest : M closing) : M cm :=
  '(c, _) <- marked (k <- rest ;; ret (k, tt)) ;; the_cm c.
(** return_expr, abort_expr, continue_expr, break_expr, opt_label, l404-454 *)
Definition opt_expr : M unit := IF at_ts EXPR_FIRST THEN (expr ;; skip) ELSE skip.
Definition opt_label : M unit := IF at_ QUOTE_IDENT THEN (node LABEL (eat_ QUOTE_IDENT) ;; skip) ELSE skip.
Definition return_expr : M cm := assert_ (t_at RETURN_KW) ;; node RETURN_EXPR (bump RETURN_KW ;; opt_expr).
Definition abort_expr : M cm := assert_ (t_at ABORT_KW) ;; node ABORT_EXPR (bump ABORT_KW ;; opt_expr).
Definition continue_expr : M cm := assert_ (t_at CONTINUE_KW) ;; node CONTINUE_EXPR (bump CONTINUE_KW ;; opt_label).
Definition break_expr : M cm := assert_ (t_at BREAK_KW) ;; node BREAK_EXPR (bump BREAK_KW ;; opt_label ;; opt_expr).
(** BlockLike::is_blocklike, expressions.rs:344-349 *)
Definition is_blocklike (k : kind) : bool :=
  match k with BLOCK_EXPR | IF_EXPR | WHILE_EXPR | FOR_EXPR | LOOP_EXPR | MATCH_EXPR => true | _ => false end.
Definition done (m : M cm) : M (option ex) := c <- m ;; ret (Some (c, is_blocklike (c_kind c))).
Definition plain (m : M cm) : M (option ex) := c <- m ;; ret (Some (c, false)).
(** the labelled loops, l110-123 *)
Definition labelled : M (option ex) :=
  '(c, ok) <- marked (
    label_decl ;;
    IF cur LOOP_KW THEN (k <- loop_rest ;; ret (k, true)) ELSE
    IF cur_kw "for" THEN (k <- for_rest ;; ret (k, true)) ELSE
    IF cur WHILE_KW THEN (k <- while_rest ;; ret (k, true)) ELSE
    (err "expected a loop" ;; ret (Complete ERROR, false))) ;;
  if (ok : bool) then (match c with Some c => ret (Some (c, is_blocklike (c_kind c))) | None => crash end) else ret None.
(** atom_expr, l77-139, from l92 on *)
Definition atom_rest : M (option ex) :=
  IF ask (t_and is_assert_ident (t_nth_at 1 BANG)) THEN plain assert_macro_expr ELSE
  IF ask (t_and (t_kw "for") (t_nth_at 1 L_PAREN)) THEN (c <- with_marker for_rest ;; ret (Some (c, true))) ELSE
  IF ask is_path_start THEN plain path_expr ELSE
  IF cur L_PAREN THEN done paren_or_tuple_or_annotated_expr ELSE
  IF cur SPEC_KW THEN done spec_block_expr ELSE
  IF cur IF_KW THEN done if_expr ELSE
  IF cur LOOP_KW THEN done (with_marker loop_rest) ELSE
  IF cur WHILE_KW THEN done (with_marker while_rest) ELSE
  IF ask (t_and (t_cur QUOTE_IDENT) (t_nth 1 COLON)) THEN labelled ELSE
  IF cur L_CURLY THEN done block_expr ELSE
  IF cur RETURN_KW THEN done return_expr ELSE
  IF cur ABORT_KW THEN done abort_expr ELSE
  IF cur CONTINUE_KW THEN done continue_expr ELSE
  IF cur BREAK_KW THEN done break_expr ELSE
  ret None.
Definition atom_expr : M (option ex) :=
  l <- literal ;;
  match l with
  | Some c => ret (Some (c, false))
  | None =>
      IF ask (t_and (t_kwi "vector") (t_nth_ts 1 [L_BRACK; L_ANGLE])) THEN plain vector_lit_expr ELSE
      IF ask (t_and (t_kw "match") (t_nth_at 1 L_PAREN)) THEN
        (c <- match_expr ;; match c with Some c => ret (Some (c, true)) | None => atom_rest end)
      ELSE atom_rest
  end.

(** * Operators, expressions.rs *)
(** call_expr, atom.rs:210-215; index_expr, l294-301 *)
Definition call_expr (c : cm) : M cm :=
  assert_ (t_at L_PAREN) ;; '(c', _) <- preceded c (value_arg_list ;; ret (CALL_EXPR, tt)) ;; ret c'.
Definition index_expr (c : cm) : M cm :=
  assert_ (t_at L_BRACK) ;;
  '(c', _) <- preceded c (bump L_BRACK ;; expr ;; expect R_BRACK ;; ret (INDEX_EXPR, tt)) ;; ret c'.
(** postfix_dot_expr, l256-292 *)
Definition postfix_dot_expr (c : cm) : M cm :=
  assert_ (t_at DOT) ;;
  '(c', _) <- preceded c (
    bump DOT ;;
    IF cur IDENT THEN
      (name_ref ;;
       IF ask (t_or (t_ts [L_PAREN; COLON_COLON]) (t_and (t_at L_ANGLE) t_no_ws)) THEN
         (ok <- opt_type_arg_list_for_expr true ;;
          if negb ok then ret (DOT_EXPR, tt) else
          IF at_ L_PAREN THEN (value_arg_list ;; ret (METHOD_CALL_EXPR, tt)) ELSE ret (DOT_EXPR, tt))
       ELSE ret (DOT_EXPR, tt)) ELSE
    IF cur INT_NUMBER THEN (node NAME_REF bump_any_ ;; ret (DOT_EXPR, tt)) ELSE
    (err "expected field name or number" ;; ret (DOT_EXPR, tt))) ;;
  ret c'.
(** postfix_expr, l234-254; the state is lhs, block_like and allow_calls *)
Definition postfix_expr : cm * bool * bool -> M ex :=
  loop (fun s : cm * bool * bool =>
    let '(c, bl, allow) := s in
    IF ask (t_and (t_cur L_PAREN) (fun _ _ => allow)) THEN (c' <- call_expr c ;; ret (inl (c', false, true))) ELSE
    IF ask (t_and (t_cur L_BRACK) (fun _ _ => allow)) THEN (c' <- index_expr c ;; ret (inl (c', false, true))) ELSE
    IF cur DOT THEN (c' <- postfix_dot_expr c ;; ret (inl (c', false, true))) ELSE
    ret (inr (c, bl))).
(** is_expr, l96-104; cast_expr, l106-112 *)
Definition is_expr (c : cm) : M cm :=
  '(c', _) <- preceded c (
    remap IS_KW ;; type_ ;;
    loop (fun _ : unit => IF eat_ PIPE THEN (type_ ;; ret (inl tt)) ELSE ret (inr tt)) tt ;;
    ret (IS_EXPR, tt)) ;;
  ret c'.
Definition cast_expr (c : cm) : M cm :=
  assert_ (t_at AS_KW) ;; '(c', _) <- preceded c (bump AS_KW ;; type_ ;; ret (CAST_EXPR, tt)) ;; ret c'.
(** behavior_predicate, specs/behavior.rs:9-24 *)
Definition is_behavior : test := fun e p =>
  (t_kwi "requires_of" e p || t_kwi "aborts_of" e p || t_kwi "ensures_of" e p || t_kwi "result_of" e p) && nth_at p 1 L_ANGLE.
Definition behavior_predicate : M cm :=
  node BEHAVIOR_PREDICATE_EXPR (bump IDENT ;; opt_type_arg_list_for_expr false ;; value_arg_list).
(** there is an operand after '..', l79 and l207 *)
Definition range_operand (r : restr) : test := t_and (t_ts EXPR_FIRST) (t_not (t_and (fun _ _ => forbid_structs r) (t_at L_CURLY))).
(** lhs, l147-232 *)
Definition unary (k : kind) (r : restr) (first : M unit) : M (option ex) := plain (node k (first ;; expr_bp r 255)).
Definition lhs (r : restr) : M (option ex) :=
  IF cur PIPE THEN
    ('(c, _) <- marked (IF lambda_param_list THEN (expr_bp r 1 ;; opt_spec_block_expr ;; ret (Complete LAMBDA_EXPR, tt)) ELSE ret (Abandon, tt)) ;;
     ret (option_map (fun c => (c, false)) c)) ELSE
  IF cur AMP THEN unary BORROW_EXPR r (bump AMP ;; eat_ MUT_KW ;; skip) ELSE
  IF ask (t_and (t_cur IDENT) is_at_quant_kw) THEN
    (IF kwi "forall" THEN plain (quant_expr FORALL_KW FORALL_EXPR) ELSE
     IF kwi "exists" THEN plain (quant_expr EXISTS_KW EXISTS_EXPR) ELSE
     IF kwi "choose" THEN plain choose_expr ELSE crash) ELSE
  IF cur_kw "copy" THEN unary RESOURCE_EXPR r (remap COPY_KW) ELSE
  IF cur MOVE_KW THEN unary RESOURCE_EXPR r (bump MOVE_KW) ELSE
  IF cur STAR THEN unary DEREF_EXPR r (bump STAR) ELSE
  IF cur BANG THEN unary BANG_EXPR r (bump BANG) ELSE
  IF cur MINUS THEN unary MINUS_EXPR r (bump MINUS) ELSE
  IF cur DOT_DOT THEN
    plain (node RANGE_EXPR (bump DOT_DOT ;; IF ask (range_operand r) THEN (expr_bp r 2 ;; skip) ELSE skip)) ELSE
  (sk <- stmt_kind_ ;;
   IF ask (t_and (fun _ _ => match sk with SSpec => true | _ => false end) is_behavior) THEN plain behavior_predicate ELSE
   (a <- atom_expr ;;
    match a with
    | None => ret None
    | Some (c, bl) => x <- postfix_expr (c, bl, negb (prefer_stmt r && bl)) ;; ret (Some x)
    end)).
(** the loop of expr_bp, l59-93 *)
Definition expr_loop (r : restr) (bp : nat) : cm -> M cm :=
  loop (fun c =>
    is_range <- at_ DOT_DOT ;;
    '(op_bp, op) <- current_op ;;
    if op_bp <? bp then ret (inr c) else
    IF at_ AS_KW THEN (c' <- cast_expr c ;; ret (inl c')) ELSE
    IF kwi "is" THEN (c' <- is_expr c ;; ret (inl c')) ELSE
    ('(c', stop) <- preceded c (
       bump op ;;
       IF ask (t_and (fun _ _ => is_range) (t_not (range_operand r))) THEN ret (RANGE_EXPR, true) ELSE
       (x <- expr_bp (mkR (forbid_structs r) false) (S op_bp) ;;
        (if is_some x then skip else err "expected expression") ;;
        ret (if (is_range : bool) then RANGE_EXPR else BIN_EXPR, false))) ;;
     if (stop : bool) then ret (inr c') else ret (inl c'))).
(** expr_bp, l35-94 *)
Definition expr_bp_body (r : restr) (bp : nat) : M (option ex) :=
  '(c, bl) <- marked (
    l <- lhs r ;;
    match l with Some (c, bl) => ret (Extend c, bl) | None => ret (Abandon, false) end) ;;
  match c with
  | None => ret None
  | Some c =>
      '(op_bp, _) <- current_op ;;
      if prefer_stmt r && bl && (op_bp <? bp) then ret (Some (c, true)) else
      (c' <- expr_loop r bp c ;; ret (Some (c', false)))
  end.

(** * Spec statements, specs/predicates.rs *)
(** opt_predicate_property_list, l196-221 *)
Definition opt_predicate_property_list : M unit :=
  IF at_ L_BRACK THEN
    (node SPEC_PREDICATE_PROPERTY_LIST (
       bump L_BRACK ;;
       delimited (
         '(_, b) <- marked (
           found <- eat_ IDENT ;;
           (IF at_ EQ THEN (bump EQ ;; literal ;; skip) ELSE skip) ;;
           ret (Complete SPEC_PREDICATE_PROPERTY, found)) ;;
         ret b) COMMA "expected identifier" (Some R_BRACK) ;;
       expect R_BRACK) ;; skip)
  ELSE skip.
(** condition_predicate, l24-43 *)
Definition predicate_rest (kw : kind) : M unit :=
  node SPEC_PREDICATE_STMT (remap kw ;; opt_predicate_property_list ;; expect_expr ;; eat_ SEMICOLON) ;; skip.
Definition condition_predicate : M bool :=
  IF cur_kw "assume" THEN (predicate_rest ASSUME_KW ;; ret true) ELSE
  IF cur_kw "assert" THEN (predicate_rest ASSERT_KW ;; ret true) ELSE
  IF cur_kw "requires" THEN (predicate_rest REQUIRES_KW ;; ret true) ELSE
  IF cur_kw "ensures" THEN (predicate_rest ENSURES_KW ;; ret true) ELSE
  IF cur_kw "decreases" THEN (predicate_rest DECREASES_KW ;; ret true) ELSE
  IF cur_kw "modifies" THEN (predicate_rest MODIFIES_KW ;; ret true) ELSE
  ret false.
(** aborts_if_predicate, l45-62 *)
Definition aborts_if_predicate : M bool :=
  IF kwi "aborts_if" THEN
    (node ABORTS_IF_STMT (
       remap ABORTS_IF_KW ;; opt_predicate_property_list ;; expect_expr ;;
       (IF kwi "with" THEN (node ABORTS_IF_WITH (remap WITH_KW ;; expect_expr) ;; skip) ELSE skip) ;;
       eat_ SEMICOLON) ;; ret true)
  ELSE ret false.
(** opt_emits_condition, l86-94; emits_predicate, l64-84 *)
Definition opt_emits_condition : M unit :=
  IF at_ IF_KW THEN (node EMITS_CONDITION (bump IF_KW ;; expr) ;; skip) ELSE skip.
Definition emits_predicate : M bool :=
  IF kwi "emits" THEN
    (node EMITS_STMT (
       remap EMITS_KW ;; opt_predicate_property_list ;; expr ;;
       IF kwi "to" THEN (remap TO_KW ;; expr ;; opt_emits_condition ;; eat_ SEMICOLON ;; skip) ELSE err "expected 'to'") ;; ret true)
  ELSE ret false.
(** invariant_predicate, l96-111 *)
Definition invariant_predicate : M bool :=
  IF at_ INVARIANT_KW THEN
    (node INVARIANT_STMT (
       bump INVARIANT_KW ;; opt_type_param_list ;;
       (IF kwi "update" THEN remap UPDATE_KW ELSE skip) ;;
       opt_predicate_property_list ;; expect_expr ;; eat_ SEMICOLON) ;; ret true)
  ELSE ret false.
(** aborts_with_predicate, l113-124 *)
Definition aborts_with_predicate : M bool :=
  IF kwi "aborts_with" THEN
    (node ABORTS_WITH_STMT (
       remap ABORTS_WITH_KW ;; opt_predicate_property_list ;;
       delimited expr COMMA "expected expression" None ;; eat_ SEMICOLON) ;; ret true)
  ELSE ret false.
(** axiom_predicate, l126-138 *)
Definition axiom_predicate : M bool :=
  IF kwi "axiom" THEN
    (node AXIOM_STMT (
       remap AXIOM_KW ;; opt_type_param_list ;; opt_predicate_property_list ;; expect_expr ;; eat_ SEMICOLON) ;; ret true)
  ELSE ret false.
(** spec_predicate, l15-22 *)
Definition spec_predicate : M bool :=
  IF condition_predicate THEN ret true ELSE
  IF aborts_if_predicate THEN ret true ELSE
  IF aborts_with_predicate THEN ret true ELSE
  IF invariant_predicate THEN ret true ELSE
  IF axiom_predicate THEN ret true ELSE
  emits_predicate.
(** update_stmt, l140-160 *)
Definition update_stmt : M bool :=
  IF kwi "update" THEN
    (marked (
       remap UPDATE_KW ;;
       l <- lhs no_restr ;;
       match l with
       | Some _ => (IF eat_ EQ THEN expect_expr ELSE err "expected '='") ;; eat_ SEMICOLON ;; ret (Complete UPDATE_STMT, tt)
       | None => ret (Abandon, tt)
       end) ;; ret true)
  ELSE ret false.
(** pragma_stmt, l162-194 *)
Definition pragma_stmt : M bool :=
  IF kwi "pragma" THEN
    (node PRAGMA_STMT (
       remap PRAGMA_KW ;;
       delimited (
         '(_, b) <- marked (
           IF cur FRIEND_KW THEN (remap IDENT ;; opt_initializer_expr ;; ret (Complete PRAGMA_ATTR_ITEM, true)) ELSE
           IF cur IDENT THEN (bump IDENT ;; opt_initializer_expr ;; ret (Complete PRAGMA_ATTR_ITEM, true)) ELSE
           ret (Abandon, false)) ;;
         ret b) COMMA "expected attribute" None ;;
       expect SEMICOLON) ;; ret true)
  ELSE ret false.

(** * Schemas, specs/schemas.rs *)
(** schema_field, l41-56 *)
Definition schema_field : M bool :=
  '(_, b) <- marked (
    (IF kwi "local" THEN remap LOCAL_KW ELSE skip) ;;
    ident_pat_or_recover ;;
    IF at_ COLON THEN (type_annotation ;; expect SEMICOLON ;; ret (Complete SCHEMA_FIELD, true)) ELSE ret (Rollback, false)) ;;
  ret b.
(** global_variable, l58-79 *)
Definition global_variable : M bool :=
  '(_, b) <- marked (
    IF kwi "global" THEN
      (remap GLOBAL_KW ;; name ;; opt_type_param_list ;;
       IF at_ COLON THEN
         (type_annotation ;; opt_initializer_expr ;; expect SEMICOLON ;; ret (Complete GLOBAL_VARIABLE_DECL, true))
       ELSE ret (Rollback, false))
    ELSE ret (Abandon, false)) ;;
  ret b.
(** schema_lit, l249-280 *)
Definition schema_lit : M unit :=
  node SCHEMA_LIT (
    path (Some PType) ;;
    IF at_ L_CURLY THEN
      (node SCHEMA_LIT_FIELD_LIST (
         bump L_CURLY ;;
         delimited (
           IF at_ IDENT THEN
             (node SCHEMA_LIT_FIELD (
                (IF nth_at_ 1 COLON THEN (name_ref ;; expect COLON ;; skip) ELSE skip) ;; expr) ;; ret true)
           ELSE ret false) COMMA "expected identifier" (Some R_CURLY) ;;
         expect R_CURLY) ;; skip)
    ELSE skip) ;;
  skip.
(** inner_expr, l141-147 *)
Definition inner_expr (bp : nat) : M (option cm) :=
  r <- expr_bp no_restr bp ;;
  match r with
  | Some (c, _) => ret (Some c)
  | None => error_and_recover "expected expression" (rs_of INCLUDE_SCHEMA_RECOVERY_SET) ;; ret None
  end.
(** include_if_else_expr, l149-158 *)
Definition include_if_else_expr : M unit :=
  node IF_ELSE_INCLUDE_EXPR (
    bump IF_KW ;; condition ;; schema_lit ;; IF expect ELSE_KW THEN schema_lit ELSE skip) ;; skip.
(** include_schema_expr, l96-139; [Some b] from a lookahead: keep going *)
Definition include_schema_expr : M unit :=
  IF at_ IF_KW THEN include_if_else_expr ELSE
  (go <- checked (
     l <- inner_expr 2 ;;
     match l with
     | None => ret (false, false)
     | Some c =>
         IF at_ IMPLIES THEN
           (preceded c (bump IMPLIES ;; schema_lit ;; ret (IMPLY_INCLUDE_EXPR, tt)) ;; ret (false, false))
         ELSE ret (true, true)
     end) ;;
   if negb go then skip else
   (r <- checked (
      l <- inner_expr 6 ;;
      match l with
      | None => ret (false, None)
      | Some _ => at_amp <- at_ AMP_AMP ;; ret (true, Some at_amp)
      end) ;;
    match r with
    | None => skip
    | Some true =>
        node AND_INCLUDE_EXPR (
          schema_lit ;;
          IF at_ AMP_AMP THEN (bump AMP_AMP ;; schema_lit)
          ELSE (error_and_recover "expected schema lit" (rs_of INCLUDE_SCHEMA_RECOVERY_SET) ;; crash)) ;; skip
    | Some false => node SCHEMA_INCLUDE_EXPR schema_lit ;; skip
    end)).
(** include_schema, l81-92 *)
Definition include_schema : M bool :=
  IF kwi "include" THEN
    (node INCLUDE_SCHEMA (remap INCLUDE_KW ;; opt_predicate_property_list ;; include_schema_expr ;; expect SEMICOLON) ;; ret true)
  ELSE ret false.
(** wildcard_ident, l228-247: the counter is a u8, checked in debug builds and wrapping in release builds *)
Definition wildcard_ident : M bool := fun e p =>
  let n := wildcard_count (S (left_ p)) p 0 0 in
  if e_debug e && (255 <? n) then Crash else
  let n := n mod 256 in
  if 0 <? n then Ret true (if kind_eqb (current p) EOF then p else do_bump WILDCARD_IDENT n p) else Ret false p.
(** opt_wildcard_pattern_modifier, l211-226 *)
Definition opt_wildcard_pattern_modifier : M unit :=
  marked (
    IF cur PUBLIC_KW THEN (bump PUBLIC_KW ;; ret (Complete WILDCARD_PATTERN_MODIFIER, tt)) ELSE
    IF ask (t_and (t_cur IDENT) (t_kwi "internal")) THEN (remap INTERNAL_KW ;; ret (Complete WILDCARD_PATTERN_MODIFIER, tt)) ELSE
    ret (Abandon, tt)) ;;
  skip.
(** wildcard_pattern, l199-209; wildcard_pattern_list, l195-197 *)
Definition wildcard_pattern : M bool :=
  '(_, b) <- marked (
    opt_wildcard_pattern_modifier ;;
    IF wildcard_ident THEN (opt_type_param_list ;; ret (Complete WILDCARD_PATTERN, true)) ELSE ret (Rollback, false)) ;;
  ret b.
Definition wildcard_pattern_list : M unit := delimited wildcard_pattern COMMA "expected function pattern" None.
(** apply_to, l180-185; apply_except, l187-193; apply_schema, l160-178 *)
Definition apply_to : M unit := node APPLY_TO (remap TO_KW ;; with_rs (rs_kw "except") wildcard_pattern_list) ;; skip.
Definition apply_except : M unit :=
  assert_ (t_kwi "except") ;; node APPLY_EXCEPT (remap EXCEPT_KW ;; wildcard_pattern_list) ;; skip.
Definition apply_schema : M bool :=
  IF kwi "apply" THEN
    (node APPLY_SCHEMA (
       remap APPLY_KW ;; schema_lit ;;
       (IF kwi "to" THEN apply_to ELSE err "expected 'to'") ;;
       (IF kwi "except" THEN apply_except ELSE skip) ;;
       expect SEMICOLON) ;; ret true)
  ELSE ret false.

(** * Items used inside blocks *)
(** opt_inner_public_modifier, items/fun.rs:129-148; visibility_modifier, l85-108 *)
Definition opt_inner_public_modifier : M unit :=
  IF eat_ L_PAREN THEN
    ((IF cur_kw "package" THEN remap PACKAGE_KW ELSE
      IF cur FRIEND_KW THEN bump FRIEND_KW ELSE
      IF cur SCRIPT_KW THEN bump SCRIPT_KW ELSE
      error_and_recover "expected public modifier" (rs_of [R_PAREN])) ;;
     expect R_PAREN ;; skip)
  ELSE skip.
Definition visibility_modifier : M bool :=
  IF cur PUBLIC_KW THEN (node VISIBILITY_MODIFIER (bump PUBLIC_KW ;; opt_inner_public_modifier) ;; ret true) ELSE
  IF cur FRIEND_KW THEN (node VISIBILITY_MODIFIER (remap FRIEND_KW) ;; ret true) ELSE
  IF cur_kw "package" THEN (node VISIBILITY_MODIFIER (remap PACKAGE_KW) ;; ret true) ELSE
  ret false.
(** opt_fun_modifiers, l66-83 *)
Definition opt_fun_modifiers : M unit :=
  iterate_to_EOF [] (fun _ : unit =>
    IF visibility_modifier THEN ret (true, tt) ELSE
    IF cur NATIVE_KW THEN (bump NATIVE_KW ;; ret (true, tt)) ELSE
    IF cur INLINE_KW THEN (bump INLINE_KW ;; ret (true, tt)) ELSE
    IF cur_kw "entry" THEN (remap ENTRY_KW ;; ret (true, tt)) ELSE
    ret (false, tt)) tt.
(** opt_ret_type, l220-228; acquires, l150-155 *)
Definition opt_ret_type : M unit := IF at_ COLON THEN (node RET_TYPE (bump COLON ;; type_) ;; skip) ELSE skip.
Definition acquires : M unit := node ACQUIRES (bump ACQUIRES_KW ;; delimited path_type COMMA "expected type" None) ;; skip.
(** fun_signature, l157-205 *)
Definition fun_signature (spec_fun : bool) : M bool :=
  bump FUN_KW ;;
  has_name <- with_rs item_start_rec_set (
    IF name_or_recover (rs_of [L_ANGLE; L_PAREN]) THEN (opt_type_param_list ;; ret true) ELSE ret false) ;;
  if negb has_name then ret false else
  (with_rs (plus_ts item_start_rec_set [SEMICOLON; L_CURLY]) (
     IF at_ L_PAREN THEN fun_param_list ELSE error_and_recover "expected function arguments" rs_empty) ;;
   with_rs (plus_ts item_start_rec_set [L_CURLY; SEMICOLON]) (
     with_ts [ACQUIRES_KW] (
       opt_ret_type ;;
       IF at_ L_BRACK THEN (if spec_fun then (weight ;; skip) else err "unexpected '['") ELSE skip) ;;
     IF at_ ACQUIRES_KW THEN (if spec_fun then err "'acquires' not allowed" else acquires) ELSE skip) ;;
   ret true).
(** fun_body, l207-218 *)
Definition fun_body : M unit :=
  IF at_ L_CURLY THEN (block_expr ;; skip) ELSE
  IF at_ SEMICOLON THEN bump SEMICOLON ELSE err "expected a block".
(** spec_inline_function, l37-49 *)
Definition spec_inline_function : M unit :=
  marked (
    eat_ NATIVE_KW ;;
    IF at_ FUN_KW THEN
      (has_name <- fun_signature true ;;
       (if (has_name : bool) then with_sk SSpec fun_body else skip) ;;
       ret (Complete SPEC_INLINE_FUN, tt))
    ELSE ret (Abandon, tt)) ;;
  skip.
(** use_stmt, blocks.rs:195-201, after the start of the marker *)
Definition use_rest : M closing :=
  assert_ (t_at USE_KW) ;; bump USE_KW ;; with_ts [SEMICOLON] (use_speck true) ;; expect SEMICOLON ;; ret (Complete USE_STMT).
(** use_alias, items/use_item.rs:63-69; use_group, l46-61; use_speck, l18-44 *)
Definition use_alias : M unit := assert_ (t_at AS_KW) ;; node USE_ALIAS (bump AS_KW ;; name) ;; skip.
Definition use_group : M unit :=
  assert_ (t_at L_CURLY) ;;
  node USE_GROUP (
    bump L_CURLY ;;
    reset_rs (delimited (use_speck false) COMMA "expected identifier" (Some R_CURLY)) ;;
    expect R_CURLY) ;;
  skip.
Definition use_speck_body (is_top_level : bool) : M bool :=
  IF ask is_path_start THEN
    (node USE_SPECK (
       path None ;;
       IF cur AS_KW THEN use_alias ELSE
       IF cur COLON_COLON THEN
         (bump COLON_COLON ;; IF cur L_CURLY THEN use_group ELSE err "expected `{` or identifier") ELSE
       skip) ;; ret true)
  ELSE (error_and_recover (if is_top_level then "expected address or identifier" else "expected identifier") rs_empty ;; ret true).
(** let_stmt, blocks.rs:175-193 *)
Definition let_stmt (allow_post : bool) : M unit :=
  node LET_STMT (
    bump LET_KW ;;
    (IF ask (t_and (fun _ _ => allow_post) (t_kwi "post")) THEN remap POST_KW ELSE skip) ;;
    with_rs (plus_ts at_stmt_start [EQ; SEMICOLON]) pattern ;;
    (IF at_ COLON THEN with_rs (plus_ts at_stmt_start [EQ; SEMICOLON]) type_annotation ELSE skip) ;;
    opt_initializer_expr ;;
    expect SEMICOLON) ;;
  skip.

(** * Proofs and lemmas, specs/proofs_and_lemmas.rs *)
(** proof, l14-24; lemma, l26-48 *)
Definition proof : M unit :=
  assert_ (t_kwi "proof") ;;
  node PROOF (remap PROOF_KW ;; IF at_ L_CURLY THEN (with_sk SProof block_expr ;; skip) ELSE err "expected a block") ;; skip.
Definition lemma : M unit :=
  assert_ (t_kwi "lemma") ;;
  node LEMMA (
    remap LEMMA_KW ;; name ;; opt_type_param_list ;;
    (IF at_ L_PAREN THEN fun_param_list ELSE error_and_recover "expected parameters" rs_empty) ;;
    (IF at_ L_CURLY THEN (with_sk SSpec block_expr ;; skip) ELSE err "expected block") ;;
    IF kwi "proof" THEN proof ELSE skip) ;;
  skip.
(** apply_lemma, l50-63; forall_apply_lemma, l65-89; post_stmt, l91-100; split_stmt, l102-112 *)
Definition apply_lemma : M bool :=
  IF kwi "apply" THEN
    (node APPLY_LEMMA (remap APPLY_KW ;; path_expr ;; value_arg_list ;; expect SEMICOLON) ;; ret true)
  ELSE ret false.
Definition forall_apply_lemma : M bool :=
  IF kwi "forall" THEN
    (node FORALL_APPLY_LEMMA (
       remap FORALL_KW ;;
       quant_binding_list (rs_union (rs_kw "apply") (rs_of [L_BRACK])) ;;
       (IF at_ L_CURLY THEN quant_trigger_list ELSE skip) ;;
       (IF at_ L_BRACK THEN (weight ;; skip) ELSE skip) ;;
       IF apply_lemma THEN skip ELSE err "expected apply") ;; ret true)
  ELSE ret false.
Definition post_stmt : M bool := IF kwi "post" THEN (node POST_STMT (remap POST_KW ;; stmt) ;; ret true) ELSE ret false.
Definition split_stmt : M bool := IF kwi "split" THEN (node SPLIT_STMT (remap SPLIT_KW ;; expr ;; eat_ SEMICOLON) ;; ret true) ELSE ret false.

(** * Statements, blocks.rs:75-173 *)
(** EXPR_STMT, l152-172 *)
Definition expr_stmt : M unit :=
  r <- with_ts [SEMICOLON] top_level_expr_in_stmt ;;
  match r with
  | Some (c, bl) =>
      IF at_ R_CURLY THEN skip ELSE
      (preceded c ((if (bl : bool) then eat_ SEMICOLON else expect SEMICOLON) ;; ret (EXPR_STMT, tt)) ;; skip)
  | None => error_and_bump "unexpected token"
  end.
Definition inline_use : M unit := marked (k <- with_rs at_stmt_start use_rest ;; ret (k, tt)) ;; skip.
Definition spec_stmt : M bool :=
  IF schema_field THEN ret true ELSE
  IF global_variable THEN ret true ELSE
  IF pragma_stmt THEN ret true ELSE
  IF update_stmt THEN ret true ELSE
  IF include_schema THEN ret true ELSE
  IF apply_schema THEN ret true ELSE
  spec_predicate.
Definition proof_stmt : M bool :=
  IF apply_lemma THEN ret true ELSE
  IF forall_apply_lemma THEN ret true ELSE
  IF spec_predicate THEN ret true ELSE
  IF post_stmt THEN ret true ELSE
  split_stmt.
(** from l85 on *)
Definition stmt_rest : M unit :=
  sk <- stmt_kind_ ;;
  IF at_ LET_KW THEN let_stmt (match sk with SSpec => true | _ => false end) ELSE
  match sk with
  | SMove => IF at_ USE_KW THEN inline_use ELSE expr_stmt
  | SSpec =>
      IF at_ USE_KW THEN inline_use ELSE
      IF ask (t_or (t_and (t_at NATIVE_KW) (t_nth_at 1 FUN_KW)) (t_at FUN_KW)) THEN spec_inline_function ELSE
      IF kwi "lemma" THEN lemma ELSE
      IF with_ts [SEMICOLON] spec_stmt THEN skip ELSE expr_stmt
  | SProof => IF proof_stmt THEN skip ELSE expr_stmt
  end.
Definition stmt_body : M unit :=
  a <- attrs ;;
  match a with
  | Some c =>
      wrap_with_error c "attributes on statements are not allowed" ;;
      IF at_ R_CURLY THEN skip ELSE stmt_rest
  | None => stmt_rest
  end.

(** * Items, items.rs *)
(** const_, l144-165 *)
Definition const_ : M closing :=
  bump CONST_KW ;;
  IF name_or_recover (plus_ts item_start_rec_set [SEMICOLON]) THEN
    (with_rs (plus_ts item_start_rec_set [SEMICOLON]) (
       with_ts [EQ] (IF at_ COLON THEN type_annotation ELSE err "missing type annotation") ;;
       initializer_expr) ;;
     expect SEMICOLON ;;
     ret (Complete CONST))
  ELSE ret (Complete CONST).
(** friend_decl, l180-185 *)
Definition friend_decl : M closing := bump FRIEND_KW ;; path None ;; expect SEMICOLON ;; ret (Complete FRIEND).

(** items/adt.rs: opt_abilities_list, l112-118; opt_abilities_list_with_semicolon, l105-110 *)
Definition opt_abilities_list : M bool :=
  IF kwi "has" THEN (with_rs item_start_rec_set abilities_list ;; ret true) ELSE ret false.
Definition opt_abilities_list_with_semicolon : M unit :=
  IF with_ts [SEMICOLON] opt_abilities_list THEN (expect SEMICOLON ;; skip) ELSE skip.
(** named_field, l135-160; named_field_list, l120-133 *)
Definition named_field : M unit :=
  '(_, bad) <- marked (
    IF at_ IDENT THEN
      (IF name_or_recover rs_empty THEN
         ((IF eat_ COLON THEN (with_ts [COMMA] type_ ;; skip) ELSE error_and_recover "missing type annotation" (rs_of [COMMA; IDENT])) ;;
          ret (Complete NAMED_FIELD, false))
       ELSE ret (Abandon, false))
    ELSE ret (Abandon, true)) ;;
  if (bad : bool) then error_and_bump "expected named field declaration" else skip.
Definition named_field_list : M unit :=
  assert_ (t_at L_CURLY) ;;
  node NAMED_FIELD_LIST (
    bump L_CURLY ;;
    iterate_to_EOF [R_CURLY] (fun _ : unit =>
      named_field ;; (IF at_ R_CURLY THEN skip ELSE (expect COMMA ;; skip)) ;; ret (true, tt)) tt ;;
    expect R_CURLY) ;;
  skip.
(** tuple_field_list, l182-205 *)
Definition tuple_field_list : M unit :=
  assert_ (t_at L_PAREN) ;;
  node TUPLE_FIELD_LIST (
    bump L_PAREN ;;
    delimited (
      '(_, b) <- marked (
        IF at_ts TYPE_FIRST THEN (type_ ;; ret (Complete TUPLE_FIELD, true)) ELSE (err "expected a type" ;; ret (Abandon, false))) ;;
      ret b) COMMA "expected tuple field" (Some R_PAREN) ;;
    expect R_PAREN) ;;
  skip.
(** struct_, l19-40 *)
Definition struct_ : M closing :=
  bump STRUCT_KW ;;
  name_or_recover adt_name_recovery ;;
  opt_type_param_list ;;
  with_ts [L_CURLY; L_PAREN] opt_abilities_list ;;
  (IF cur L_CURLY THEN (with_ts [R_CURLY] named_field_list ;; opt_abilities_list_with_semicolon) ELSE
   IF cur SEMICOLON THEN bump SEMICOLON ELSE
   IF cur L_PAREN THEN (tuple_field_list ;; with_ts [SEMICOLON] opt_abilities_list ;; expect SEMICOLON ;; skip) ELSE
   err "expected `;`, `{`, or `(`") ;;
  ret (Complete STRUCT).
(** enum_variant, l82-103; enum_variant_list, l61-80 *)
Definition enum_variant : M bool :=
  '(_, r) <- marked (
    attrs ;;
    IF at_ IDENT THEN
      (name_or_recover rs_empty ;;
       IF cur L_CURLY THEN (named_field_list ;; ret (Complete VARIANT, Some true)) ELSE
       IF cur L_PAREN THEN (tuple_field_list ;; ret (Complete VARIANT, Some false)) ELSE
       ret (Complete VARIANT, Some false))
    ELSE ret (Abandon, None)) ;;
  match r with Some curly => ret curly | None => error_and_bump "expected enum variant" ;; ret false end.
Definition enum_variant_list : M unit :=
  assert_ (t_at L_CURLY) ;;
  node VARIANT_LIST (
    bump L_CURLY ;;
    iterate_to_EOF [R_CURLY] (fun _ : unit =>
      is_curly <- enum_variant ;;
      (IF at_ R_CURLY THEN skip ELSE ((if (is_curly : bool) then eat_ COMMA else expect COMMA) ;; skip)) ;;
      ret (true, tt)) tt ;;
    expect R_CURLY) ;;
  skip.
(** enum_, l42-59 *)
Definition enum_ : M closing :=
  remap ENUM_KW ;;
  IF name_or_recover adt_name_recovery THEN
    (opt_type_param_list ;;
     with_ts [L_CURLY] opt_abilities_list ;;
     (IF at_ L_CURLY THEN enum_variant_list ELSE err "expected `{`") ;;
     opt_abilities_list_with_semicolon ;;
     ret (Complete ENUM))
  ELSE ret (Complete ENUM).

(** items/fun.rs: function, l51-64; spec_function, l24-35 *)
Definition function : M closing :=
  opt_fun_modifiers ;;
  (IF at_ FUN_KW THEN (has_name <- fun_signature false ;; if (has_name : bool) then fun_body else skip)
   ELSE error_and_recover "expected 'fun'" item_start_rec_set) ;;
  ret (Complete FUN).
Definition spec_function : M closing :=
  opt_fun_modifiers ;;
  IF at_ FUN_KW THEN
    (has_name <- fun_signature true ;;
     (if (has_name : bool) then with_sk SSpec fun_body else skip) ;;
     ret (Complete SPEC_FUN))
  ELSE ret Abandon.

(** items/item_spec.rs: item_spec_type_param, l70-92; item_spec_type_param_list, l55-68 *)
Definition item_spec_type_param : M bool :=
  '(_, ok) <- marked (
    (IF kwi "phantom" THEN remap PHANTOM_KW ELSE skip) ;;
    IF cur IDENT THEN
      (name_ref ;; (IF at_ COLON THEN (bump COLON ;; ability_bound_list) ELSE skip) ;; ret (Complete ITEM_SPEC_TYPE_PARAM, true))
    ELSE ret (Abandon, false)) ;;
  if (ok : bool) then ret true else error_and_bump "expected type parameter" ;; ret false.
Definition item_spec_type_param_list : M unit :=
  assert_ (t_at L_ANGLE) ;;
  node ITEM_SPEC_TYPE_PARAM_LIST (
    bump L_ANGLE ;; delimited item_spec_type_param COMMA "expected type parameter" (Some R_ANGLE) ;; expect R_ANGLE) ;;
  skip.
(** item_spec_param, l108-120; item_spec_param_list, l94-106 *)
Definition item_spec_param : M bool :=
  node ITEM_SPEC_PARAM (
    IF ident_pat_or_recover THEN
      IF at_ COLON THEN type_annotation ELSE error_and_recover "missing type annotation" rs_empty
    ELSE skip) ;;
  ret true.
Definition item_spec_param_list : M unit :=
  node ITEM_SPEC_PARAM_LIST (
    bump L_PAREN ;; delimited item_spec_param COMMA "expected value parameter" (Some R_PAREN) ;; expect R_PAREN) ;;
  skip.
(** item_spec_signature, l38-53 *)
Definition item_spec_signature : M unit :=
  marked (IF name_ref_or_recover THEN ret (Complete ITEM_SPEC_REF, tt) ELSE ret (Abandon, tt)) ;;
  (IF at_ L_ANGLE THEN item_spec_type_param_list ELSE skip) ;;
  IF at_ L_PAREN THEN (item_spec_param_list ;; with_ts [L_CURLY] opt_ret_type) ELSE skip.
(** item_spec, l19-36 *)
Definition item_spec : M closing :=
  (IF at_ MODULE_KW THEN bump MODULE_KW ELSE with_rs (plus_ts item_start_rec_set [L_CURLY]) item_spec_signature) ;;
  (IF at_ L_CURLY THEN (with_sk SSpec block_expr ;; skip) ELSE err "expected a block") ;;
  (IF kwi "proof" THEN proof ELSE skip) ;;
  ret (Complete ITEM_SPEC).
(** schema, specs/schemas.rs:23-39 *)
Definition schema : M closing :=
  assert_ (t_kwi "schema") ;;
  remap SCHEMA_KW ;;
  with_rs item_start_rec_set (name_or_recover item_start_rec_set ;; opt_type_param_list) ;;
  (IF at_ L_CURLY THEN (with_sk SSpec block_expr ;; skip) ELSE err "expected a block") ;;
  ret (Complete SCHEMA).

(** opt_item, items.rs:81-142: [None] for Err(m) *)
Definition some_closing (m : M closing) : M (option closing) := c <- m ;; ret (Some c).
Definition opt_item : M (option closing) :=
  IF cur USE_KW THEN some_closing (with_rs item_start_kws_only use_rest) ELSE
  IF cur CONST_KW THEN some_closing const_ ELSE
  IF ask (t_and (t_cur FRIEND_KW) (t_not (rs_nth 1 (rs_union (plus_ts vis_modifier_item_start [INLINE_KW; NATIVE_KW]) (rs_kw "entry"))))) THEN some_closing friend_decl ELSE
  IF cur STRUCT_KW THEN some_closing struct_ ELSE
  IF cur_kw "enum" THEN some_closing enum_ ELSE
  IF cur FUN_KW THEN some_closing function ELSE
  IF ask on_function_modifiers_start THEN some_closing function ELSE
  IF ask on_visibility_modifier_start THEN
    (iterate_to_EOF [] (fun _ : unit => IF visibility_modifier THEN ret (true, tt) ELSE ret (false, tt)) tt ;;
     IF cur STRUCT_KW THEN some_closing struct_ ELSE
     IF cur CONST_KW THEN some_closing const_ ELSE
     IF cur_kw "enum" THEN some_closing enum_ ELSE
     some_closing function) ELSE
  IF cur SPEC_KW THEN
    (bump SPEC_KW ;;
     IF kwi "schema" THEN some_closing schema ELSE
     IF kwi "lemma" THEN (lemma ;; ret (Some (Complete SPEC_LEMMA))) ELSE
     IF cur FUN_KW THEN some_closing spec_function ELSE
     IF ask on_function_modifiers_start THEN some_closing spec_function ELSE
     some_closing item_spec) ELSE
  ret None.
(** item, l41-72 *)
Definition item : M unit :=
  '(_, ok) <- marked (
    attrs ;;
    r <- opt_item ;;
    match r with Some c => ret (c, true) | None => ret (Abandon, false) end) ;;
  if (ok : bool) then (IF at_ SEMICOLON THEN error_and_bump "expected item, found `;`" ELSE skip) else
  IF cur L_CURLY THEN unexpected_block "expected an item, got a block" ELSE
  IF cur R_CURLY THEN err "unexpected '}'" ELSE
  IF cur EOF THEN err "unexpected EOF" ELSE
  error_and_bump "expected an item".
(** item_list, l29-39 *)
Definition item_list : M unit :=
  assert_ (t_at L_CURLY) ;;
  bump L_CURLY ;;
  iterate_to_EOF [R_CURLY] (fun _ : unit => with_ts [R_CURLY] item ;; ret (true, tt)) tt ;;
  expect R_CURLY ;;
  skip.

(** * Top level, grammar.rs *)
(** module, l84-99 *)
Definition module : M closing :=
  bump MODULE_KW ;;
  (IF nth_at_ 1 COLON_COLON THEN (any_address ;; bump COLON_COLON) ELSE skip) ;;
  name_or_recover (rs_of TOP_LEVEL_FIRST) ;;
  (IF at_ L_CURLY THEN item_list ELSE error_and_recover "expected '{'" (rs_of TOP_LEVEL_FIRST)) ;;
  ret (Complete MODULE).
(** address_def, l101-122 *)
Definition address_def : M closing :=
  remap ADDRESS_KW ;;
  any_address ;;
  (IF at_ L_CURLY THEN
     (bump L_CURLY ;;
      iterate_to_EOF [R_CURLY] (fun _ : unit =>
        '(_, ok) <- marked (
          attrs ;;
          IF at_ MODULE_KW THEN (c <- module ;; ret (c, true)) ELSE ret (Abandon, false)) ;;
        (if (ok : bool) then skip else error_and_recover "expected module" (rs_of [MODULE_KW; R_CURLY])) ;;
        ret (true, tt)) tt ;;
      expect R_CURLY ;; skip)
   ELSE error_and_recover "expected '{'" (rs_of TOP_LEVEL_FIRST)) ;;
  ret (Complete ADDRESS_DEF).
(** module_spec, l124-135; script, l137-145 *)
Definition module_spec : M closing :=
  bump SPEC_KW ;;
  with_rs (plus_ts (rs_of TOP_LEVEL_FIRST) [L_CURLY]) (path None) ;;
  (IF at_ L_CURLY THEN item_list ELSE error_and_recover "expected '{'" (rs_of TOP_LEVEL_FIRST)) ;;
  ret (Complete MODULE_SPEC).
Definition script : M closing :=
  bump SCRIPT_KW ;;
  (IF at_ L_CURLY THEN item_list ELSE error_and_recover "expected `{`" (rs_of TOP_LEVEL_FIRST)) ;;
  ret (Complete SCRIPT).
(** entry_points::source_file, l63-81 *)
Definition top_item : M unit :=
  '(_, ok) <- marked (
    attrs ;;
    IF cur MODULE_KW THEN (c <- module ;; ret (c, true)) ELSE
    IF cur SPEC_KW THEN (c <- module_spec ;; ret (c, true)) ELSE
    IF cur SCRIPT_KW THEN (c <- script ;; ret (c, true)) ELSE
    IF cur_kw "address" THEN (c <- address_def ;; ret (c, true)) ELSE
    ret (Abandon, false)) ;;
  if (ok : bool) then skip else error_and_bump "unexpected ident".
Definition source_file : M unit :=
  node SOURCE_FILE (iterate_to_EOF [] (fun _ : unit => top_item ;; ret (true, tt)) tt) ;; skip.

(** one unfolding of the recursive functions *)
Definition unfold_recs : recs :=
  mkRecs path_body type_body pattern_body expr_bp_body stmt_body attr_item_body use_speck_body.
End Grammar.

Definition out_of_fuel {A} : M A := fun _ _ => Fuel.
Definition bottom : recs :=
  mkRecs (fun _ => out_of_fuel) (fun _ => out_of_fuel) out_of_fuel (fun _ _ => out_of_fuel) out_of_fuel out_of_fuel (fun _ => out_of_fuel).
Fixpoint run (n : nat) : recs := match n with O => bottom | S n' => unfold_recs (run n') end.

(** parse, crates/syntax/src/parse.rs:39-47, up to the events: the tokens of a file with their texts, as
    tokenize returns them *)
Definition significant_ (ts : list (raw_token * text)) : list (raw_token * text) := filter (fun t => negb (is_trivia (rt_kind (fst t)))) ts.
Definition file_env (debug : bool) (ts : list (raw_token * text)) : env := mkEnv (map snd (significant_ ts)) debug rs_empty SMove.
(** enough unfoldings, GrammarTotal.v *)
Definition enough (p : parser) : nat := 3 * length (p_toks p) + 3.
Definition parse_events (debug : bool) (ts : list (raw_token * text)) : out unit :=
  let p := parser_new (map fst ts) in source_file (run (enough p)) (file_env debug ts) p.
