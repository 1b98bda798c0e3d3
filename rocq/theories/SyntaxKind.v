(** The fieldless enum [SyntaxKind] (crates/syntax/src/syntax_kind/generated.rs:10-324), in declaration order;
    [disc] is the [#[repr(u16)]] discriminant. [LAST_] is [__LAST]. *)
From Verif Require Import Base.

Inductive kind : Set :=
| TOMBSTONE | EOF | SEMICOLON | COMMA | L_PAREN | R_PAREN | L_CURLY | R_CURLY | L_BRACK | R_BRACK | L_ANGLE
| R_ANGLE | AT | POUND | AMP | PIPE | PLUS | STAR | SLASH | CARET | PERCENT | UNDERSCORE | DOT | DOT_DOT
| COLON | COLON_COLON | EQ | EQ_EQ | FAT_ARROW | IMPLIES | LESS_IMPLIES | BANG | NOT_EQ | MINUS | LT_EQ
| GT_EQ | PLUS_EQ | MINUS_EQ | PIPE_EQ | AMP_EQ | CARET_EQ | SLASH_EQ | STAR_EQ | PERCENT_EQ | AMP_AMP
| PIPE_PIPE | SHL | SHR | SHL_EQ | SHR_EQ | ADDRESS_KW | MODULE_KW | SCRIPT_KW | SPEC_KW | FUN_KW | STRUCT_KW
| CONST_KW | FRIEND_KW | USE_KW | PUBLIC_KW | NATIVE_KW | IF_KW | ELSE_KW | TRUE_KW | FALSE_KW | LOOP_KW
| WHILE_KW | CONTINUE_KW | BREAK_KW | AS_KW | RETURN_KW | MOVE_KW | LET_KW | MUT_KW | ABORT_KW | INVARIANT_KW
| ACQUIRES_KW | INLINE_KW | ENTRY_KW | PACKAGE_KW | MATCH_KW | FOR_KW | IN_KW | IS_KW | PHANTOM_KW | ENUM_KW
| HAS_KW | ASSERT_KW | ASSUME_KW | REQUIRES_KW | ENSURES_KW | ABORTS_IF_KW | POST_KW | SUCCEEDS_IF_KW
| ABORTS_WITH_KW | DECREASES_KW | MODIFIES_KW | WITH_KW | AXIOM_KW | INCLUDE_KW | PRAGMA_KW | GLOBAL_KW
| LOCAL_KW | UPDATE_KW | COPY_KW | SCHEMA_KW | EMITS_KW | APPLY_KW | TO_KW | EXCEPT_KW | INTERNAL_KW
| FORALL_KW | EXISTS_KW | CHOOSE_KW | WHERE_KW | MIN_KW | PROOF_KW | LEMMA_KW | SPLIT_KW | WEIGHT_KW
| INT_NUMBER | BYTE_STRING | HEX_STRING | BAD_CHARACTER | ERROR | IDENT | WHITESPACE | QUOTE_IDENT | COMMENT
| WILDCARD_IDENT | SOURCE_FILE | ADDRESS_DEF | MODULE | SCRIPT | MODULE_SPEC | ITEM_SPEC | ITEM_SPEC_REF
| ITEM_SPEC_TYPE_PARAM_LIST | ITEM_SPEC_TYPE_PARAM | ITEM_SPEC_PARAM_LIST | ITEM_SPEC_PARAM | STRUCT | FRIEND
| ENUM | FUN | SPEC_FUN | SPEC_INLINE_FUN | USE_STMT | USE_SPECK | USE_GROUP | USE_ALIAS | CONST
| INITIALIZER | TYPE | RET_TYPE | PAREN_TYPE | TUPLE_TYPE | PATH_TYPE | LAMBDA_TYPE | LAMBDA_TYPE_PARAM
| LAMBDA_TYPE_ABILITY_LIST | REF_TYPE | UNIT_TYPE | PAREN_PAT | UNIT_PAT | PAT | IDENT_PAT | WILDCARD_PAT
| REST_PAT | PATH_PAT | STRUCT_PAT | STRUCT_PAT_FIELD_LIST | STRUCT_PAT_FIELD | TUPLE_STRUCT_PAT | TUPLE_PAT
| RANGE_PAT | LITERAL_PAT | TUPLE_EXPR | ANNOTATED_EXPR | PAREN_EXPR | PATH_EXPR | LAMBDA_EXPR
| LAMBDA_PARAM_LIST | LAMBDA_PARAM | IF_EXPR | WHILE_EXPR | CONDITION | LOOP_EXPR | FOR_EXPR | FOR_CONDITION
| ABORT_EXPR | RETURN_EXPR | CONTINUE_EXPR | BREAK_EXPR | LABEL_DECL | LABEL | INLINE_EXPR | BLOCK_EXPR
| SPEC_BLOCK_EXPR | VECTOR_LIT_EXPR | MATCH_EXPR | MATCH_ARM_LIST | MATCH_ARM | MATCH_GUARD | STRUCT_LIT
| STRUCT_LIT_FIELD_LIST | STRUCT_LIT_FIELD | CALL_EXPR | ASSERT_MACRO_EXPR | INDEX_EXPR | DOT_EXPR
| METHOD_CALL_EXPR | CAST_EXPR | IS_EXPR | BORROW_EXPR | DEREF_EXPR | BANG_EXPR | MINUS_EXPR | RESOURCE_EXPR
| RANGE_EXPR | UNIT_EXPR | BIN_EXPR | INVARIANT_STMT | EMITS_STMT | EMITS_CONDITION | PRAGMA_STMT
| PRAGMA_ATTR_ITEM | AXIOM_STMT | UPDATE_STMT | ABORTS_IF_STMT | ABORTS_IF_WITH | ABORTS_WITH_STMT
| SPEC_PREDICATE_STMT | SPEC_PREDICATE | SPEC_PREDICATE_PROPERTY_LIST | SPEC_PREDICATE_PROPERTY
| GLOBAL_VARIABLE_DECL | BEHAVIOR_PREDICATE_EXPR | SCHEMA | SCHEMA_FIELD | INCLUDE_SCHEMA
| SCHEMA_INCLUDE_EXPR | AND_INCLUDE_EXPR | IMPLY_INCLUDE_EXPR | IF_ELSE_INCLUDE_EXPR | APPLY_SCHEMA
| APPLY_TO | APPLY_EXCEPT | WILDCARD_PATTERN_MODIFIER | WILDCARD_PATTERN | SCHEMA_LIT | SCHEMA_LIT_FIELD_LIST
| SCHEMA_LIT_FIELD | FORALL_EXPR | EXISTS_EXPR | CHOOSE_EXPR | WHERE_EXPR | QUANT_BINDING_LIST
| QUANT_BINDING | QUANT_TRIGGER_LIST | NAMED_FIELD_LIST | NAMED_FIELD | TUPLE_FIELD_LIST | TUPLE_FIELD
| VARIANT_LIST | VARIANT | ABILITY_LIST | ABILITY_BOUND_LIST | ABILITY | ATTR | ATTR_ITEM_LIST | ATTR_ITEM
| PATH | PATH_SEGMENT | PATH_ADDRESS | LITERAL | VISIBILITY_MODIFIER | NAME | FIELD_REF | NAME_REF
| INDEX_REF | VALUE_ADDRESS | NAMED_ADDRESS | ADDRESS_REF | ADDRESS_LIT | LET_STMT | EXPR_STMT
| TYPE_PARAM_LIST | TYPE_PARAM | TYPE_ARG_LIST | TYPE_ARG | VALUE_ARG_LIST | VALUE_ARG | PARAM_LIST | PARAM
| ACQUIRES | PROOF | PROOF_BLOCK | LEMMA | SPEC_LEMMA | LEMMA_BLOCK | APPLY_LEMMA | FORALL_APPLY_LEMMA
| POST_STMT | SPLIT_STMT | WEIGHT | LAST_.

Definition disc (k : kind) : N :=
  match k with
  | TOMBSTONE => 0 | EOF => 1 | SEMICOLON => 2 | COMMA => 3 | L_PAREN => 4 | R_PAREN => 5 | L_CURLY => 6
  | R_CURLY => 7 | L_BRACK => 8 | R_BRACK => 9 | L_ANGLE => 10 | R_ANGLE => 11 | AT => 12 | POUND => 13
  | AMP => 14 | PIPE => 15 | PLUS => 16 | STAR => 17 | SLASH => 18 | CARET => 19 | PERCENT => 20
  | UNDERSCORE => 21 | DOT => 22 | DOT_DOT => 23 | COLON => 24 | COLON_COLON => 25 | EQ => 26 | EQ_EQ => 27
  | FAT_ARROW => 28 | IMPLIES => 29 | LESS_IMPLIES => 30 | BANG => 31 | NOT_EQ => 32 | MINUS => 33
  | LT_EQ => 34 | GT_EQ => 35 | PLUS_EQ => 36 | MINUS_EQ => 37 | PIPE_EQ => 38 | AMP_EQ => 39
  | CARET_EQ => 40 | SLASH_EQ => 41 | STAR_EQ => 42 | PERCENT_EQ => 43 | AMP_AMP => 44 | PIPE_PIPE => 45
  | SHL => 46 | SHR => 47 | SHL_EQ => 48 | SHR_EQ => 49 | ADDRESS_KW => 50 | MODULE_KW => 51
  | SCRIPT_KW => 52 | SPEC_KW => 53 | FUN_KW => 54 | STRUCT_KW => 55 | CONST_KW => 56 | FRIEND_KW => 57
  | USE_KW => 58 | PUBLIC_KW => 59 | NATIVE_KW => 60 | IF_KW => 61 | ELSE_KW => 62 | TRUE_KW => 63
  | FALSE_KW => 64 | LOOP_KW => 65 | WHILE_KW => 66 | CONTINUE_KW => 67 | BREAK_KW => 68 | AS_KW => 69
  | RETURN_KW => 70 | MOVE_KW => 71 | LET_KW => 72 | MUT_KW => 73 | ABORT_KW => 74 | INVARIANT_KW => 75
  | ACQUIRES_KW => 76 | INLINE_KW => 77 | ENTRY_KW => 78 | PACKAGE_KW => 79 | MATCH_KW => 80 | FOR_KW => 81
  | IN_KW => 82 | IS_KW => 83 | PHANTOM_KW => 84 | ENUM_KW => 85 | HAS_KW => 86 | ASSERT_KW => 87
  | ASSUME_KW => 88 | REQUIRES_KW => 89 | ENSURES_KW => 90 | ABORTS_IF_KW => 91 | POST_KW => 92
  | SUCCEEDS_IF_KW => 93 | ABORTS_WITH_KW => 94 | DECREASES_KW => 95 | MODIFIES_KW => 96 | WITH_KW => 97
  | AXIOM_KW => 98 | INCLUDE_KW => 99 | PRAGMA_KW => 100 | GLOBAL_KW => 101 | LOCAL_KW => 102
  | UPDATE_KW => 103 | COPY_KW => 104 | SCHEMA_KW => 105 | EMITS_KW => 106 | APPLY_KW => 107 | TO_KW => 108
  | EXCEPT_KW => 109 | INTERNAL_KW => 110 | FORALL_KW => 111 | EXISTS_KW => 112 | CHOOSE_KW => 113
  | WHERE_KW => 114 | MIN_KW => 115 | PROOF_KW => 116 | LEMMA_KW => 117 | SPLIT_KW => 118 | WEIGHT_KW => 119
  | INT_NUMBER => 120 | BYTE_STRING => 121 | HEX_STRING => 122 | BAD_CHARACTER => 123 | ERROR => 124
  | IDENT => 125 | WHITESPACE => 126 | QUOTE_IDENT => 127 | COMMENT => 128 | WILDCARD_IDENT => 129
  | SOURCE_FILE => 130 | ADDRESS_DEF => 131 | MODULE => 132 | SCRIPT => 133 | MODULE_SPEC => 134
  | ITEM_SPEC => 135 | ITEM_SPEC_REF => 136 | ITEM_SPEC_TYPE_PARAM_LIST => 137 | ITEM_SPEC_TYPE_PARAM => 138
  | ITEM_SPEC_PARAM_LIST => 139 | ITEM_SPEC_PARAM => 140 | STRUCT => 141 | FRIEND => 142 | ENUM => 143
  | FUN => 144 | SPEC_FUN => 145 | SPEC_INLINE_FUN => 146 | USE_STMT => 147 | USE_SPECK => 148
  | USE_GROUP => 149 | USE_ALIAS => 150 | CONST => 151 | INITIALIZER => 152 | TYPE => 153 | RET_TYPE => 154
  | PAREN_TYPE => 155 | TUPLE_TYPE => 156 | PATH_TYPE => 157 | LAMBDA_TYPE => 158 | LAMBDA_TYPE_PARAM => 159
  | LAMBDA_TYPE_ABILITY_LIST => 160 | REF_TYPE => 161 | UNIT_TYPE => 162 | PAREN_PAT => 163 | UNIT_PAT => 164
  | PAT => 165 | IDENT_PAT => 166 | WILDCARD_PAT => 167 | REST_PAT => 168 | PATH_PAT => 169
  | STRUCT_PAT => 170 | STRUCT_PAT_FIELD_LIST => 171 | STRUCT_PAT_FIELD => 172 | TUPLE_STRUCT_PAT => 173
  | TUPLE_PAT => 174 | RANGE_PAT => 175 | LITERAL_PAT => 176 | TUPLE_EXPR => 177 | ANNOTATED_EXPR => 178
  | PAREN_EXPR => 179 | PATH_EXPR => 180 | LAMBDA_EXPR => 181 | LAMBDA_PARAM_LIST => 182
  | LAMBDA_PARAM => 183 | IF_EXPR => 184 | WHILE_EXPR => 185 | CONDITION => 186 | LOOP_EXPR => 187
  | FOR_EXPR => 188 | FOR_CONDITION => 189 | ABORT_EXPR => 190 | RETURN_EXPR => 191 | CONTINUE_EXPR => 192
  | BREAK_EXPR => 193 | LABEL_DECL => 194 | LABEL => 195 | INLINE_EXPR => 196 | BLOCK_EXPR => 197
  | SPEC_BLOCK_EXPR => 198 | VECTOR_LIT_EXPR => 199 | MATCH_EXPR => 200 | MATCH_ARM_LIST => 201
  | MATCH_ARM => 202 | MATCH_GUARD => 203 | STRUCT_LIT => 204 | STRUCT_LIT_FIELD_LIST => 205
  | STRUCT_LIT_FIELD => 206 | CALL_EXPR => 207 | ASSERT_MACRO_EXPR => 208 | INDEX_EXPR => 209
  | DOT_EXPR => 210 | METHOD_CALL_EXPR => 211 | CAST_EXPR => 212 | IS_EXPR => 213 | BORROW_EXPR => 214
  | DEREF_EXPR => 215 | BANG_EXPR => 216 | MINUS_EXPR => 217 | RESOURCE_EXPR => 218 | RANGE_EXPR => 219
  | UNIT_EXPR => 220 | BIN_EXPR => 221 | INVARIANT_STMT => 222 | EMITS_STMT => 223 | EMITS_CONDITION => 224
  | PRAGMA_STMT => 225 | PRAGMA_ATTR_ITEM => 226 | AXIOM_STMT => 227 | UPDATE_STMT => 228
  | ABORTS_IF_STMT => 229 | ABORTS_IF_WITH => 230 | ABORTS_WITH_STMT => 231 | SPEC_PREDICATE_STMT => 232
  | SPEC_PREDICATE => 233 | SPEC_PREDICATE_PROPERTY_LIST => 234 | SPEC_PREDICATE_PROPERTY => 235
  | GLOBAL_VARIABLE_DECL => 236 | BEHAVIOR_PREDICATE_EXPR => 237 | SCHEMA => 238 | SCHEMA_FIELD => 239
  | INCLUDE_SCHEMA => 240 | SCHEMA_INCLUDE_EXPR => 241 | AND_INCLUDE_EXPR => 242 | IMPLY_INCLUDE_EXPR => 243
  | IF_ELSE_INCLUDE_EXPR => 244 | APPLY_SCHEMA => 245 | APPLY_TO => 246 | APPLY_EXCEPT => 247
  | WILDCARD_PATTERN_MODIFIER => 248 | WILDCARD_PATTERN => 249 | SCHEMA_LIT => 250
  | SCHEMA_LIT_FIELD_LIST => 251 | SCHEMA_LIT_FIELD => 252 | FORALL_EXPR => 253 | EXISTS_EXPR => 254
  | CHOOSE_EXPR => 255 | WHERE_EXPR => 256 | QUANT_BINDING_LIST => 257 | QUANT_BINDING => 258
  | QUANT_TRIGGER_LIST => 259 | NAMED_FIELD_LIST => 260 | NAMED_FIELD => 261 | TUPLE_FIELD_LIST => 262
  | TUPLE_FIELD => 263 | VARIANT_LIST => 264 | VARIANT => 265 | ABILITY_LIST => 266
  | ABILITY_BOUND_LIST => 267 | ABILITY => 268 | ATTR => 269 | ATTR_ITEM_LIST => 270 | ATTR_ITEM => 271
  | PATH => 272 | PATH_SEGMENT => 273 | PATH_ADDRESS => 274 | LITERAL => 275 | VISIBILITY_MODIFIER => 276
  | NAME => 277 | FIELD_REF => 278 | NAME_REF => 279 | INDEX_REF => 280 | VALUE_ADDRESS => 281
  | NAMED_ADDRESS => 282 | ADDRESS_REF => 283 | ADDRESS_LIT => 284 | LET_STMT => 285 | EXPR_STMT => 286
  | TYPE_PARAM_LIST => 287 | TYPE_PARAM => 288 | TYPE_ARG_LIST => 289 | TYPE_ARG => 290
  | VALUE_ARG_LIST => 291 | VALUE_ARG => 292 | PARAM_LIST => 293 | PARAM => 294 | ACQUIRES => 295
  | PROOF => 296 | PROOF_BLOCK => 297 | LEMMA => 298 | SPEC_LEMMA => 299 | LEMMA_BLOCK => 300
  | APPLY_LEMMA => 301 | FORALL_APPLY_LEMMA => 302 | POST_STMT => 303 | SPLIT_STMT => 304 | WEIGHT => 305
  | LAST_ => 306
  end%N.

(** All kinds in order of discriminant. *)
Definition all_kinds : list kind :=
  [TOMBSTONE; EOF; SEMICOLON; COMMA; L_PAREN; R_PAREN; L_CURLY; R_CURLY; L_BRACK; R_BRACK; L_ANGLE;
   R_ANGLE; AT; POUND; AMP; PIPE; PLUS; STAR; SLASH; CARET; PERCENT; UNDERSCORE; DOT; DOT_DOT; COLON;
   COLON_COLON; EQ; EQ_EQ; FAT_ARROW; IMPLIES; LESS_IMPLIES; BANG; NOT_EQ; MINUS; LT_EQ; GT_EQ; PLUS_EQ;
   MINUS_EQ; PIPE_EQ; AMP_EQ; CARET_EQ; SLASH_EQ; STAR_EQ; PERCENT_EQ; AMP_AMP; PIPE_PIPE; SHL; SHR;
   SHL_EQ; SHR_EQ; ADDRESS_KW; MODULE_KW; SCRIPT_KW; SPEC_KW; FUN_KW; STRUCT_KW; CONST_KW; FRIEND_KW;
   USE_KW; PUBLIC_KW; NATIVE_KW; IF_KW; ELSE_KW; TRUE_KW; FALSE_KW; LOOP_KW; WHILE_KW; CONTINUE_KW;
   BREAK_KW; AS_KW; RETURN_KW; MOVE_KW; LET_KW; MUT_KW; ABORT_KW; INVARIANT_KW; ACQUIRES_KW; INLINE_KW;
   ENTRY_KW; PACKAGE_KW; MATCH_KW; FOR_KW; IN_KW; IS_KW; PHANTOM_KW; ENUM_KW; HAS_KW; ASSERT_KW; ASSUME_KW;
   REQUIRES_KW; ENSURES_KW; ABORTS_IF_KW; POST_KW; SUCCEEDS_IF_KW; ABORTS_WITH_KW; DECREASES_KW;
   MODIFIES_KW; WITH_KW; AXIOM_KW; INCLUDE_KW; PRAGMA_KW; GLOBAL_KW; LOCAL_KW; UPDATE_KW; COPY_KW;
   SCHEMA_KW; EMITS_KW; APPLY_KW; TO_KW; EXCEPT_KW; INTERNAL_KW; FORALL_KW; EXISTS_KW; CHOOSE_KW; WHERE_KW;
   MIN_KW; PROOF_KW; LEMMA_KW; SPLIT_KW; WEIGHT_KW; INT_NUMBER; BYTE_STRING; HEX_STRING; BAD_CHARACTER;
   ERROR; IDENT; WHITESPACE; QUOTE_IDENT; COMMENT; WILDCARD_IDENT; SOURCE_FILE; ADDRESS_DEF; MODULE;
   SCRIPT; MODULE_SPEC; ITEM_SPEC; ITEM_SPEC_REF; ITEM_SPEC_TYPE_PARAM_LIST; ITEM_SPEC_TYPE_PARAM;
   ITEM_SPEC_PARAM_LIST; ITEM_SPEC_PARAM; STRUCT; FRIEND; ENUM; FUN; SPEC_FUN; SPEC_INLINE_FUN; USE_STMT;
   USE_SPECK; USE_GROUP; USE_ALIAS; CONST; INITIALIZER; TYPE; RET_TYPE; PAREN_TYPE; TUPLE_TYPE; PATH_TYPE;
   LAMBDA_TYPE; LAMBDA_TYPE_PARAM; LAMBDA_TYPE_ABILITY_LIST; REF_TYPE; UNIT_TYPE; PAREN_PAT; UNIT_PAT; PAT;
   IDENT_PAT; WILDCARD_PAT; REST_PAT; PATH_PAT; STRUCT_PAT; STRUCT_PAT_FIELD_LIST; STRUCT_PAT_FIELD;
   TUPLE_STRUCT_PAT; TUPLE_PAT; RANGE_PAT; LITERAL_PAT; TUPLE_EXPR; ANNOTATED_EXPR; PAREN_EXPR; PATH_EXPR;
   LAMBDA_EXPR; LAMBDA_PARAM_LIST; LAMBDA_PARAM; IF_EXPR; WHILE_EXPR; CONDITION; LOOP_EXPR; FOR_EXPR;
   FOR_CONDITION; ABORT_EXPR; RETURN_EXPR; CONTINUE_EXPR; BREAK_EXPR; LABEL_DECL; LABEL; INLINE_EXPR;
   BLOCK_EXPR; SPEC_BLOCK_EXPR; VECTOR_LIT_EXPR; MATCH_EXPR; MATCH_ARM_LIST; MATCH_ARM; MATCH_GUARD;
   STRUCT_LIT; STRUCT_LIT_FIELD_LIST; STRUCT_LIT_FIELD; CALL_EXPR; ASSERT_MACRO_EXPR; INDEX_EXPR; DOT_EXPR;
   METHOD_CALL_EXPR; CAST_EXPR; IS_EXPR; BORROW_EXPR; DEREF_EXPR; BANG_EXPR; MINUS_EXPR; RESOURCE_EXPR;
   RANGE_EXPR; UNIT_EXPR; BIN_EXPR; INVARIANT_STMT; EMITS_STMT; EMITS_CONDITION; PRAGMA_STMT;
   PRAGMA_ATTR_ITEM; AXIOM_STMT; UPDATE_STMT; ABORTS_IF_STMT; ABORTS_IF_WITH; ABORTS_WITH_STMT;
   SPEC_PREDICATE_STMT; SPEC_PREDICATE; SPEC_PREDICATE_PROPERTY_LIST; SPEC_PREDICATE_PROPERTY;
   GLOBAL_VARIABLE_DECL; BEHAVIOR_PREDICATE_EXPR; SCHEMA; SCHEMA_FIELD; INCLUDE_SCHEMA;
   SCHEMA_INCLUDE_EXPR; AND_INCLUDE_EXPR; IMPLY_INCLUDE_EXPR; IF_ELSE_INCLUDE_EXPR; APPLY_SCHEMA; APPLY_TO;
   APPLY_EXCEPT; WILDCARD_PATTERN_MODIFIER; WILDCARD_PATTERN; SCHEMA_LIT; SCHEMA_LIT_FIELD_LIST;
   SCHEMA_LIT_FIELD; FORALL_EXPR; EXISTS_EXPR; CHOOSE_EXPR; WHERE_EXPR; QUANT_BINDING_LIST; QUANT_BINDING;
   QUANT_TRIGGER_LIST; NAMED_FIELD_LIST; NAMED_FIELD; TUPLE_FIELD_LIST; TUPLE_FIELD; VARIANT_LIST; VARIANT;
   ABILITY_LIST; ABILITY_BOUND_LIST; ABILITY; ATTR; ATTR_ITEM_LIST; ATTR_ITEM; PATH; PATH_SEGMENT;
   PATH_ADDRESS; LITERAL; VISIBILITY_MODIFIER; NAME; FIELD_REF; NAME_REF; INDEX_REF; VALUE_ADDRESS;
   NAMED_ADDRESS; ADDRESS_REF; ADDRESS_LIT; LET_STMT; EXPR_STMT; TYPE_PARAM_LIST; TYPE_PARAM;
   TYPE_ARG_LIST; TYPE_ARG; VALUE_ARG_LIST; VALUE_ARG; PARAM_LIST; PARAM; ACQUIRES; PROOF; PROOF_BLOCK;
   LEMMA; SPEC_LEMMA; LEMMA_BLOCK; APPLY_LEMMA; FORALL_APPLY_LEMMA; POST_STMT; SPLIT_STMT; WEIGHT; LAST_].

(** syntax_kind.rs:16-22 [From<u16> for SyntaxKind]: transmute *)
Definition of_disc (d : N) : option kind := nth_error all_kinds (N.to_nat d).

Lemma of_disc_disc : forall k, of_disc (disc k) = Some k.
Proof. destruct k; reflexivity. Qed.

Lemma disc_inj : forall a b, disc a = disc b -> a = b.
Proof. intros a b H. apply (f_equal of_disc) in H. rewrite !of_disc_disc in H. congruence. Qed.

Definition kind_eqb (a b : kind) : bool := N.eqb (disc a) (disc b).
Lemma kind_eqb_spec : forall a b, kind_eqb a b = true <-> a = b.
Proof.
  intros a b. unfold kind_eqb. rewrite N.eqb_eq. split; [apply disc_inj|congruence].
Qed.
Lemma kind_eqb_refl : forall a, kind_eqb a a = true.
Proof. intros a. now apply kind_eqb_spec. Qed.
Lemma kind_eqb_neq : forall a b, kind_eqb a b = false <-> a <> b.
Proof. intros a b. rewrite <- kind_eqb_spec. destruct (kind_eqb a b); split; congruence. Qed.
Definition kind_eq_dec (a b : kind) : {a = b} + {a <> b}.
Proof. destruct (kind_eqb a b) eqn:E; [left; now apply kind_eqb_spec|right; now apply kind_eqb_neq]. Defined.

(** syntax_kind.rs:32-35 [is_trivia] *)
Definition is_trivia (k : kind) : bool := match k with WHITESPACE | COMMENT => true | _ => false end.

(** generated.rs:327-345 [is_keyword] *)
Definition is_keyword (k : kind) : bool :=
  match k with
  | ADDRESS_KW | MODULE_KW | SCRIPT_KW | SPEC_KW | FUN_KW | STRUCT_KW | CONST_KW | FRIEND_KW | USE_KW
  | PUBLIC_KW | NATIVE_KW | IF_KW | ELSE_KW | TRUE_KW | FALSE_KW | LOOP_KW | WHILE_KW | CONTINUE_KW
  | BREAK_KW | AS_KW | RETURN_KW | MOVE_KW | LET_KW | MUT_KW | ABORT_KW | INVARIANT_KW | ACQUIRES_KW
  | INLINE_KW | ENTRY_KW | PACKAGE_KW | MATCH_KW | FOR_KW | IN_KW | IS_KW | PHANTOM_KW | ENUM_KW
  | HAS_KW | ASSERT_KW | ASSUME_KW | REQUIRES_KW | ENSURES_KW | ABORTS_IF_KW | POST_KW | SUCCEEDS_IF_KW
  | ABORTS_WITH_KW | DECREASES_KW | MODIFIES_KW | WITH_KW | AXIOM_KW | INCLUDE_KW | PRAGMA_KW
  | GLOBAL_KW | LOCAL_KW | UPDATE_KW | COPY_KW | SCHEMA_KW | EMITS_KW | APPLY_KW | TO_KW | EXCEPT_KW
  | INTERNAL_KW | FORALL_KW | EXISTS_KW | CHOOSE_KW | WHERE_KW | MIN_KW | PROOF_KW | LEMMA_KW | SPLIT_KW
  | WEIGHT_KW => true
  | _ => false
  end.
