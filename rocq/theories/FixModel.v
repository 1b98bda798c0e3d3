(** Model of the quick fixes that rewrite expressions: the expressions they build, and how the syntax factory makes a node of them.

    Source: crates/syntax/src/ast/syntax_factory.rs:80-92, syntax_factory/exprs.rs:12-39,59-62,82-96,180-184,
    crates/ide-diagnostics/src/handlers/{can_be_replaced_with_compound_expr,can_be_replaced_with_index_expr,can_be_replaced_with_method_call,redundant_cast}.rs.

    Simplified: expressions are those of PrecSpec.v (names, literals, parentheses, prefixes, fields, indices, binary operators); of a name or a literal only
    the kind of its token is kept, so whether two expressions are the same is given.  The factory parses the tokens of a text; the text itself is only used
    in examples.  Mappings between old and new nodes, and type arguments of methods, are left out. *)
From Coq Require Import String.
From Verif Require Import Base SyntaxKind ParserModel AddressModel GrammarBase GrammarModel PrecSpec.
Close Scope string_scope.
Open Scope list_scope.

(** * The syntax factory *)
(** Expr::can_cast, generated/nodes.rs:6993-7034 *)
Definition expr_kinds : list kind :=
  [ABORT_EXPR; ANNOTATED_EXPR; ASSERT_MACRO_EXPR; BANG_EXPR; BEHAVIOR_PREDICATE_EXPR; BIN_EXPR; BLOCK_EXPR; BORROW_EXPR; BREAK_EXPR; CALL_EXPR; CAST_EXPR; CHOOSE_EXPR; CONTINUE_EXPR; DEREF_EXPR;
   DOT_EXPR; EXISTS_EXPR; FOR_EXPR; FORALL_EXPR; IF_EXPR; INDEX_EXPR; IS_EXPR; LAMBDA_EXPR; LITERAL; LOOP_EXPR; MATCH_EXPR; METHOD_CALL_EXPR; MINUS_EXPR; PAREN_EXPR; PATH_EXPR; RANGE_EXPR;
   RESOURCE_EXPR; RETURN_EXPR; SPEC_BLOCK_EXPR; STRUCT_LIT; TUPLE_EXPR; UNIT_EXPR; VECTOR_LIT_EXPR; WHILE_EXPR].
Definition is_expr (k : kind) : bool := existsb (kind_eqb k) expr_kinds.
(** the calls that build a node, up to the one that closes the [d]th node that is open *)
Fixpoint take_node (d : nat) (cs : list call) : list call :=
  match cs with
  | [] => []
  | CStart k :: r => CStart k :: take_node (S d) r
  | CFinish :: r => CFinish :: match d with S (S d') => take_node (S d') r | _ => [] end
  | c :: r => c :: take_node d r
  end.
(** support::child::<Expr>, on what is inside a node: the first child that is an expression; [d] nodes are open *)
Fixpoint first_expr (d : nat) (cs : list call) : option (list call) :=
  match cs with
  | [] => None
  | CStart k :: r => match d with 0 => if is_expr k then Some (take_node 0 cs) else first_expr 1 r | _ => first_expr (S d) r end
  | CFinish :: r => match d with 0 => None | S d' => first_expr d' r end
  | _ :: r => first_expr d r
  end.
(** descendants().find_map(BlockExpr::cast): what comes after the beginning of the first block *)
Fixpoint first_block (cs : list call) : option (list call) :=
  match cs with [] => None | CStart k :: r => if kind_eqb k BLOCK_EXPR then Some r else first_block r | _ :: r => first_block r end.
(** expr_from_text, exprs.rs:180-184 with ast_from_text, syntax_factory.rs:80-92: [l] are the tokens of [module 0x1::m { fun main() { ... } }] with
    the text in it.  None: a panic, because there is no block, no expression in it, or one of another kind. *)
Definition node_from (k : kind) (cs : list call) : option (list call) :=
  match first_block cs with
  | None => None
  | Some r => match first_expr 0 r with
              | Some (CStart k' :: n) => if kind_eqb k' k then Some (CStart k' :: n) else None
              | _ => None
              end
  end.
Definition make (debug : bool) (k : kind) (l : list (raw_token * text)) : option (list call) :=
  match parse_events debug l with
  | Ret _ p => match process (p_events p) with Ok cs => node_from k cs | _ => None end
  | _ => None
  end.

(** * The fixes *)
Definition kind_of (e : expr) : kind :=
  match e with
  | Lit _ => LITERAL | Var => PATH_EXPR | Paren _ => PAREN_EXPR | BorrowMut _ => BORROW_EXPR | Dot _ => DOT_EXPR | Index _ _ => INDEX_EXPR
  | Un k _ => match find (fun p => kind_eqb (fst p) k) prefixes with Some (_, n) => n | None => ERROR end
  | Bin k _ _ => if kind_eqb k DOT_DOT then RANGE_EXPR else BIN_EXPR
  end.
(** *vector::borrow(recv, arg) or *recv.borrow(arg): the base of the index expression, can_be_replaced_with_index_expr.rs:107-115,127-130 *)
Definition index_base (recv : expr) : expr :=
  match recv with
  | Var | Paren _ => recv
  | BorrowMut e => e
  | Un k e => if kind_eqb k AMP then e else Paren recv
  | _ => Paren recv
  end.
Definition index_fix (recv arg : expr) : expr := Index (index_base recv) arg.
(** f(recv, args): the receiver of the method call, can_be_replaced_with_method_call.rs:95-98,119-130 *)
Definition strip_borrow (e : expr) : expr := match e with BorrowMut e' => e' | Un k e' => if kind_eqb k AMP then e' else e | _ => e end.
Definition atom_kinds : list kind :=
  [VECTOR_LIT_EXPR; STRUCT_LIT; TUPLE_EXPR; PAREN_EXPR; ANNOTATED_EXPR; DOT_EXPR; METHOD_CALL_EXPR; INDEX_EXPR; CALL_EXPR; ASSERT_MACRO_EXPR; PATH_EXPR; LAMBDA_EXPR; LITERAL; BLOCK_EXPR].
Definition receiver_of (e : expr) : expr := let r := strip_borrow e in if existsb (kind_eqb (kind_of r)) atom_kinds then r else Paren r.
(** ArithOp with the assignment that does it, operators.rs:58-70, bin_expr.rs:33-54 *)
Definition compound_ops : list (kind * kind) :=
  [(PLUS, PLUS_EQ); (STAR, STAR_EQ); (MINUS, MINUS_EQ); (SLASH, SLASH_EQ); (PERCENT, PERCENT_EQ); (SHL, SHL_EQ); (SHR, SHR_EQ); (CARET, CARET_EQ); (PIPE, PIPE_EQ); (AMP, AMP_EQ)].
Definition compound_of (k : kind) : option kind := option_map snd (find (fun p => kind_eqb k (fst p)) compound_ops).
Section Compound.
(** whether two expressions have the same tree with the same texts *)
Variable same : expr -> expr -> bool.
(** can_be_replaced_with_compound_expr, can_be_replaced_with_compound_expr.rs:15-36: whether there is a warning *)
Definition compound_warns (e : expr) : bool :=
  match e with Bin k l (Bin k' a _) => kind_eqb k EQ && negb (kind_eqb k' DOT_DOT) && same l a | _ => false end.
(** fixes, :39-73: what the assignment is replaced with *)
Definition compound_fix (e : expr) : option expr :=
  match e with
  | Bin _ l (Bin k _ r) => if compound_warns e then match compound_of k with Some k' => Some (Bin k' l r) | None => None end else None
  | _ => None
  end.
End Compound.
(** redundant_cast.rs:57-60: what is put for the cast [n] *)
Definition cast_fix (n : list call) : option (list call) :=
  match n with CStart k :: r => if kind_eqb k CAST_EXPR then first_expr 0 r else None | _ => None end.
