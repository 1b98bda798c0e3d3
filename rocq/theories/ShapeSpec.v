(** What a well-formed file looks like and which tree it has (C48): a grammar over the significant tokens in
    which every production comes with the tree calls of what it spells.  Nothing here mentions the parser.

    The grammar covers modules, scripts and address blocks with constants, friends, uses, structs, enums and
    functions, and all types, patterns, statements and expressions of the Move language that can appear in them.
    Not covered: specifications (spec blocks, schemas, pragmas, quantifiers), macros other than the asserts, a variable called copy,
    calls and indices directly after a block, and what ShapeProps.v shows the parser to reject. *)
From Coq Require Import String.
From Verif Require Import Base SyntaxKind ParserModel ParserProps AddressModel PrecSpec.
Close Scope string_scope.
Open Scope list_scope.

Definition tk (k : kind) : call := CToken k 1.
Definition N (k : kind) (cs : list call) : list call := CStart k :: cs ++ [CFinish].

(** how type arguments are written after a segment of a path: not at all, as in a type, as in an expression *)
Inductive mode := MNone | MTy (b : bool) | MEx.

(** the syntactic categories; a flag [b] of types says whether parenthesised types may occur, of patterns whether
    tuples may; the numbers of expressions are the least power of an operator at its root and the greatest power
    of an operator that may follow *)
Inductive nt :=
| Comma (x : nt) (close : kind)                  (* separated by commas, up to [close] *)
| Path (m : mode) | Segs (m : mode) | Seg (m : mode) (first : bool) | SegArgs (m : mode)
| Type_ (b : bool) | TArg (b : bool) | LParam (b : bool) | LRet (b : bool) | LHas
| Abils (sep : kind) | TParam | TParams
| Pat (b : bool) | PField | LitP | Lit_
| Expr | Ex (bp t : nat) | Opnd (t : nat) | Prim (bl : bool) | Atom (t : nat) (bl : bool)
| EArgs | Args | Arg | SField | LamP | IsTys
| Block | Stmts | Stmt | Cond | Branch (t : nat) | Loop (k : kind) (t : nat) | Arms | Arm | Guard | ABody
| MExpr (t : nat)
| Attrs | Attr | AItem
| USpeck | Field | TField | Has | HasSemi | Params | Param | RetTy | Acq | PathTys | FBody | Mod_ | Mods | Vis | OVis
| Vars | Variant (curly : bool) | Addr
| Item | Items | Module_ | Modules | Top | File.

(** contextual keywords that cannot be names here: they end a list of declarations, begin a list of abilities, mark a parameter *)
Definition reserved : list string := ["enum"; "has"; "phantom"]%string.
(** literals, numbers apart *)
Definition tokens_of_literals : list kind := [INT_NUMBER; BYTE_STRING; HEX_STRING; TRUE_KW; FALSE_KW].
Definition starts_type : list kind := [IDENT; INT_NUMBER; UNDERSCORE; L_PAREN; L_BRACK; L_ANGLE; BANG; STAR; AMP; PIPE].
(** what an operand of return, abort, break begins with *)
Definition starts_operand : list kind :=
  [TRUE_KW; FALSE_KW; INT_NUMBER; AT; BYTE_STRING; HEX_STRING; IDENT; UNDERSCORE; IF_KW; LOOP_KW; WHILE_KW; FOR_KW; RETURN_KW; CONTINUE_KW; BREAK_KW; MOVE_KW; COPY_KW; ABORT_KW; QUOTE_IDENT;
   L_PAREN; L_CURLY; L_BRACK; PIPE; AMP; STAR; BANG].
Definition assert_names : list string := ["assert"; "assert_eq"; "assert_ne"; "debug_assert"; "debug_assert_eq"; "debug_assert_ne"]%string.

Section Grammar.
Variable T : toks.
Variable X : list text.
Definition K (i : nat) (k : kind) : Prop := kind_at T i = k.
Definition among (i : nat) (ks : list kind) : Prop := In (kind_at T i) ks.
Definition word (i : nat) : text := nth i X [].
Definition kw (i : nat) (s : string) : Prop := K i IDENT /\ word i = str s.
Definition id (i : nat) : Prop := K i IDENT /\ forall s, In s reserved -> word i <> str s.
(** a name where an expression is expected: what follows does not make it the beginning of something else *)
Definition ordinary (i : nat) : Prop :=
  id i /\ word i <> str "copy" /\
  (forall s, In s ["forall"; "exists"; "choose"]%string -> word i = str s -> ~ among (S i) [COLON; IDENT]) /\
  (word i = str "vector" -> ~ among (S i) [L_BRACK; L_ANGLE]) /\
  (forall s, In s ["match"; "for"]%string -> word i = str s -> ~ K (S i) L_PAREN) /\
  (forall s, In s assert_names -> word i = str s -> ~ K (S i) BANG).
(** the first token of a path: a name, or a number before [::] *)
Definition head (i : nat) : Prop := K i INT_NUMBER -> K (S i) COLON_COLON.
(** nothing here continues an expression that ends before: no operator of this power, no call, index or field *)
Definition ends_at (bp j : nat) : Prop :=
  (forall k q, op_at T j k -> power k = Some q -> q < bp) /\ ~ among j [L_PAREN; L_BRACK; DOT] /\ (K j AS_KW -> 2 < bp) /\ (kw j "is" -> 2 < bp).
(** the same after a statement that ends with a block: calls and indices do not continue it *)
Definition ends_stmt (j : nat) : Prop := (forall k q, op_at T j k -> power k <> Some q) /\ ~ among j [DOT; AS_KW] /\ ~ kw j "is".
Definition ends_block (t j : nat) : Prop := if t =? 0 then ends_at 1 j else ends_stmt j.
(** begins an expression that is a statement without a semicolon *)
Definition blockish (i : nat) : Prop := among i [L_CURLY; IF_KW; WHILE_KW; LOOP_KW; QUOTE_IDENT] \/ kw i "match" \/ kw i "for".

Definition NAME_ : list call := N NAME [tk IDENT].
Definition NREF : list call := N NAME_REF [tk IDENT].
Definition IPAT : list call := N IDENT_PAT NAME_.
Definition WPAT : list call := N WILDCARD_PAT [tk UNDERSCORE].

Inductive der : nt -> nat -> list call -> nat -> Prop :=
(** lists *)
| c_end : forall x c i, K i c -> der (Comma x c) i [] i
| c_one : forall x c i a j, der x i a j -> K j c -> der (Comma x c) i a j
| c_more : forall x c i a j l k, der x i a j -> K j COMMA -> der (Comma x c) (S j) l k -> der (Comma x c) i (a ++ tk COMMA :: l) k
(** paths *)
| path : forall m i p j, der (Segs m) i p j -> (K j COLON_COLON -> K (S j) L_CURLY) -> der (Path m) i p j
| segs_one : forall m i c j, der (Seg m true) i c j -> der (Segs m) i (N PATH c) j
| segs_more : forall m i p j c k, der (Segs m) i p j -> K j COLON_COLON -> der (Seg m false) (S j) c k -> der (Segs m) i (N PATH (p ++ tk COLON_COLON :: c)) k
| seg_name : forall m f i a j, id i -> der (SegArgs m) (S i) a j -> der (Seg m f) i (N PATH_SEGMENT (NREF ++ a)) j
| seg_any : forall b f i, K i UNDERSCORE -> der (Seg (MTy b) f) i (N PATH_SEGMENT (N NAME_REF [tk IDENT])) (S i)
| seg_addr : forall m i, K i INT_NUMBER -> der (Seg m true) i (N PATH_SEGMENT (N PATH_ADDRESS (N VALUE_ADDRESS [tk INT_NUMBER]))) (S i)
| args_none : forall i, der (SegArgs MNone) i [] i
| args_no_type : forall b i, ~ K i L_ANGLE -> der (SegArgs (MTy b)) i [] i
| args_type : forall b i l j, K i L_ANGLE -> der (Comma (TArg b) R_ANGLE) (S i) l j -> der (SegArgs (MTy b)) i (N TYPE_ARG_LIST (tk L_ANGLE :: l ++ [tk R_ANGLE])) (S j)
| args_no_expr : forall i, (K i COLON_COLON -> ~ K (S i) L_ANGLE) -> (K i L_ANGLE -> no_args T i) -> der (SegArgs MEx) i [] i
| args_expr : forall i a j, der EArgs i a j -> der (SegArgs MEx) i a j
| eargs : forall i l j, K i L_ANGLE -> der (Comma (TArg false) R_ANGLE) (S i) l j -> der EArgs i (N TYPE_ARG_LIST (tk L_ANGLE :: l ++ [tk R_ANGLE])) (S j)
| eargs_colon : forall i l j, K i COLON_COLON -> K (S i) L_ANGLE -> der (Comma (TArg false) R_ANGLE) (S (S i)) l j -> der EArgs i (N TYPE_ARG_LIST (tk COLON_COLON :: tk L_ANGLE :: l ++ [tk R_ANGLE])) (S j)
| targ : forall b i t j, der (Type_ b) i t j -> der (TArg b) i (N TYPE_ARG t) j
(** types *)
| t_path : forall b i p j, head i -> der (Path (MTy b)) i p j -> der (Type_ b) i (N PATH_TYPE p) j
| t_ref : forall b i t j, K i AMP -> ~ K (S i) MUT_KW -> der (Type_ b) (S i) t j -> der (Type_ b) i (N REF_TYPE (tk AMP :: t)) j
| t_mut : forall b i t j, K i AMP -> K (S i) MUT_KW -> der (Type_ b) (S (S i)) t j -> der (Type_ b) i (N REF_TYPE (tk AMP :: tk MUT_KW :: t)) j
| t_unit : forall i, K i L_PAREN -> K (S i) R_PAREN -> der (Type_ true) i (N UNIT_TYPE [tk L_PAREN; tk R_PAREN]) (S (S i))
| t_paren : forall i t j, K i L_PAREN -> der (Type_ true) (S i) t j -> K j R_PAREN -> der (Type_ true) i (N PAREN_TYPE (tk L_PAREN :: t ++ [tk R_PAREN])) (S j)
| t_tuple : forall i t j l k, K i L_PAREN -> der (Type_ true) (S i) t j -> K j COMMA -> der (Comma (Type_ true) R_PAREN) (S j) l k ->
    der (Type_ true) i (N TUPLE_TYPE (tk L_PAREN :: t ++ tk COMMA :: l ++ [tk R_PAREN])) (S k)
| t_lambda : forall b i l j r k h m, K i PIPE -> der (Comma (LParam b) PIPE) (S i) l j -> der (LRet b) (S j) r k -> der LHas k h m ->
    der (Type_ b) i (N LAMBDA_TYPE (tk PIPE :: l ++ tk PIPE :: r ++ h)) m
| lparam : forall b i t j, ~ K i PIPE -> der (Type_ b) i t j -> der (LParam b) i (N LAMBDA_TYPE_PARAM t) j
| lret_none : forall b i, ~ among i starts_type \/ kw i "has" -> der (LRet b) i [] i
| lret : forall b i t j, ~ kw i "has" -> der (Type_ b) i t j -> der (LRet b) i t j
| lhas_none : forall i, ~ kw i "has" -> der LHas i [] i
| lhas : forall i a j, kw i "has" -> der (Abils PLUS) (S i) a j -> ~ K j PLUS -> der LHas i (N LAMBDA_TYPE_ABILITY_LIST (tk HAS_KW :: N ABILITY_BOUND_LIST a)) j
| ab_one : forall s i, id i -> der (Abils s) i (N ABILITY [tk IDENT]) (S i)
| ab_more : forall s i a j, id i -> K (S i) s -> der (Abils s) (S (S i)) a j -> der (Abils s) i (N ABILITY [tk IDENT] ++ tk s :: a) j
(** type parameters *)
| tparam : forall i, id i -> ~ K (S i) COLON -> der TParam i (N TYPE_PARAM NAME_) (S i)
| tparam_bound : forall i a j, id i -> K (S i) COLON -> der (Abils PLUS) (S (S i)) a j -> among j [COMMA; R_ANGLE] -> der TParam i (N TYPE_PARAM (NAME_ ++ N ABILITY_BOUND_LIST (tk COLON :: a))) j
| tparam_phantom : forall i, kw i "phantom" -> id (S i) -> ~ K (S (S i)) COLON -> der TParam i (N TYPE_PARAM (tk PHANTOM_KW :: NAME_)) (S (S i))
| tparam_phantom_bound : forall i a j, kw i "phantom" -> id (S i) -> K (S (S i)) COLON -> der (Abils PLUS) (S (S (S i))) a j -> among j [COMMA; R_ANGLE] ->
    der TParam i (N TYPE_PARAM (tk PHANTOM_KW :: NAME_ ++ N ABILITY_BOUND_LIST (tk COLON :: a))) j
| tparams_none : forall i, ~ K i L_ANGLE -> der TParams i [] i
| tparams : forall i l j, K i L_ANGLE -> der (Comma TParam R_ANGLE) (S i) l j -> der TParams i (N TYPE_PARAM_LIST (tk L_ANGLE :: l ++ [tk R_ANGLE])) (S j)
(** patterns *)
| p_ident : forall b i, id i -> ~ among (S i) [COLON_COLON; L_PAREN; L_CURLY; L_ANGLE] -> der (Pat b) i IPAT (S i)
| p_wild : forall b i, K i UNDERSCORE -> der (Pat b) i WPAT (S i)
| p_path : forall b i p j, head i -> ~ K i UNDERSCORE -> (K i IDENT -> among (S i) [COLON_COLON; L_ANGLE]) -> der (Path (MTy true)) i p j -> ~ among j [L_PAREN; L_CURLY] -> der (Pat b) i (N PATH_PAT p) j
| p_tuple_struct : forall b i p j l k, head i -> ~ K i UNDERSCORE -> der (Path (MTy true)) i p j -> K j L_PAREN -> der (Comma (Pat false) R_PAREN) (S j) l k ->
    der (Pat b) i (N TUPLE_STRUCT_PAT (p ++ tk L_PAREN :: l ++ [tk R_PAREN])) (S k)
| p_struct : forall b i p j l k, head i -> ~ K i UNDERSCORE -> der (Path (MTy true)) i p j -> K j L_CURLY -> der (Comma PField R_CURLY) (S j) l k ->
    der (Pat b) i (N STRUCT_PAT (p ++ N STRUCT_PAT_FIELD_LIST (tk L_CURLY :: l ++ [tk R_CURLY]))) (S k)
| p_lit : forall b i c j, der LitP i c j -> ~ K j DOT_DOT -> der (Pat b) i c j
| p_range : forall b i c j d k, der LitP i c j -> K j DOT_DOT -> der LitP (S j) d k -> der (Pat b) i (N RANGE_PAT (c ++ tk DOT_DOT :: d)) k
| p_rest : forall b i, K i DOT_DOT -> ~ among (S i) (MINUS :: AT :: tokens_of_literals) -> der (Pat b) i (N REST_PAT [tk DOT_DOT]) (S i)
| p_unit : forall b i, K i L_PAREN -> K (S i) R_PAREN -> der (Pat b) i (N UNIT_PAT [tk L_PAREN; tk R_PAREN]) (S (S i))
| p_paren : forall b i p j, K i L_PAREN -> der (Pat false) (S i) p j -> K j R_PAREN -> der (Pat b) i (N PAREN_PAT (tk L_PAREN :: p ++ [tk R_PAREN])) (S j)
| p_tuple : forall i p j l k, K i L_PAREN -> der (Pat false) (S i) p j -> K j COMMA -> der (Comma (Pat false) R_PAREN) (S j) l k ->
    der (Pat true) i (N TUPLE_PAT (tk L_PAREN :: p ++ tk COMMA :: l ++ [tk R_PAREN])) (S k)
| pf_named : forall i p j, id i -> K (S i) COLON -> der (Pat false) (S (S i)) p j -> der PField i (N STRUCT_PAT_FIELD (NREF ++ tk COLON :: p)) j
| pf_short : forall i, id i -> ~ K (S i) COLON -> der PField i (N STRUCT_PAT_FIELD IPAT) (S i)
| pf_wild : forall i, K i UNDERSCORE -> der PField i (N STRUCT_PAT_FIELD WPAT) (S i)
| pf_rest : forall i, K i DOT_DOT -> der PField i (N STRUCT_PAT_FIELD (N REST_PAT [tk DOT_DOT])) (S i)
| lit_tok : forall i k, In k tokens_of_literals -> K i k -> (k = INT_NUMBER -> ~ K (S i) COLON_COLON) -> der Lit_ i (N LITERAL [tk k]) (S i)
| lit_addr : forall i, K i AT -> K (S i) INT_NUMBER -> der Lit_ i (N LITERAL (N ADDRESS_LIT (tk AT :: N VALUE_ADDRESS [tk INT_NUMBER]))) (S (S i))
| lit_named : forall i, K i AT -> K (S i) IDENT -> der Lit_ i (N LITERAL (N ADDRESS_LIT (tk AT :: N NAMED_ADDRESS [tk IDENT]))) (S (S i))
| litp : forall i c j, der Lit_ i c j -> der LitP i (N LITERAL_PAT c) j
| litp_minus : forall i, K i MINUS -> K (S i) INT_NUMBER -> ~ K (S (S i)) COLON_COLON -> der LitP i (N LITERAL_PAT (tk MINUS :: N LITERAL [tk INT_NUMBER])) (S (S i))
(** expressions: operators *)
| e_any : forall t i c j, der (Ex 1 t) i c j -> der Expr i c j
| e_opnd : forall bp t i c j, 1 <= bp -> bp <= 255 -> der (Opnd t) i c j -> der (Ex bp t) i c j
| e_bin : forall bp t i l j k q t' r m, der (Ex bp t) i l j -> op_at T j k -> power k = Some q -> q <= t -> bp <= q -> (k = DOT_DOT -> ~ among (S j) [MINUS; L_CURLY]) ->
    der (Ex (S q) t') (j + width k) r m -> der (Ex bp (Nat.min q t')) i (N (if kind_eqb k DOT_DOT then RANGE_EXPR else BIN_EXPR) (l ++ CToken k (width k) :: r)) m
| e_cast : forall bp t i c j ty k, der (Ex bp t) i c j -> K j AS_KW -> bp <= 2 -> 2 <= t -> der (Type_ true) (S j) ty k -> der (Ex bp 255) i (N CAST_EXPR (c ++ tk AS_KW :: ty)) k
| e_is : forall bp t i c j ty k, der (Ex bp t) i c j -> kw j "is" -> bp <= 2 -> 2 <= t -> der IsTys (S j) ty k -> der (Ex bp 255) i (N IS_EXPR (c ++ tk IS_KW :: ty)) k
| is_one : forall i t j, der (Type_ true) i t j -> ~ K j PIPE -> der IsTys i t j
| is_more : forall i t j l k, der (Type_ true) i t j -> K j PIPE -> der IsTys (S j) l k -> der IsTys i (t ++ tk PIPE :: l) k
(** operands *)
| o_prim : forall bl i c j, der (Prim bl) i c j -> der (Opnd 255) i c j
| o_greedy : forall bl i c j, der (Atom 0 bl) i c j -> der (Opnd 0) i c j
| o_borrow : forall t i c j, K i AMP -> ~ K (S i) MUT_KW -> der (Ex 255 t) (S i) c j -> der (Opnd t) i (N BORROW_EXPR (tk AMP :: c)) j
| o_borrow_mut : forall t i c j, K i AMP -> K (S i) MUT_KW -> der (Ex 255 t) (S (S i)) c j -> der (Opnd t) i (N BORROW_EXPR (tk AMP :: tk MUT_KW :: c)) j
| o_prefix : forall t k n i c j, In (k, n) [(MOVE_KW, RESOURCE_EXPR); (STAR, DEREF_EXPR); (BANG, BANG_EXPR); (MINUS, MINUS_EXPR)] -> K i k -> der (Ex 255 t) (S i) c j -> der (Opnd t) i (N n (tk k :: c)) j
| o_copy : forall t i c j, kw i "copy" -> der (Ex 255 t) (S i) c j -> der (Opnd t) i (N RESOURCE_EXPR (tk COPY_KW :: c)) j
| o_lambda : forall i l j t c k, K i PIPE -> der (Comma LamP PIPE) (S i) l j -> der (Ex 1 t) (S j) c k -> ~ K k SPEC_KW ->
    der (Opnd 0) i (N LAMBDA_EXPR (N LAMBDA_PARAM_LIST (tk PIPE :: l ++ [tk PIPE]) ++ c)) k
| lam_id : forall i, id i -> ~ K (S i) COLON -> der LamP i (N LAMBDA_PARAM IPAT) (S i)
| lam_wild : forall i, K i UNDERSCORE -> ~ K (S i) COLON -> der LamP i (N LAMBDA_PARAM WPAT) (S i)
| lam_typed : forall i t j, id i -> K (S i) COLON -> der (Type_ true) (S (S i)) t j -> der LamP i (N LAMBDA_PARAM (IPAT ++ tk COLON :: t)) j
(** calls, indices, fields *)
| pr_atom : forall bl i c j, der (Atom 255 bl) i c j -> der (Prim bl) i c j
| pr_call : forall i f j a k, der (Prim false) i f j -> der Args j a k -> der (Prim false) i (N CALL_EXPR (f ++ a)) k
| pr_index : forall i f j t c k, der (Prim false) i f j -> K j L_BRACK -> der (Ex 1 t) (S j) c k -> K k R_BRACK -> der (Prim false) i (N INDEX_EXPR (f ++ tk L_BRACK :: c ++ [tk R_BRACK])) (S k)
| pr_field : forall bl i f j, der (Prim bl) i f j -> K j DOT -> K (S j) IDENT -> ~ among (S (S j)) [L_PAREN; COLON_COLON] -> (K (S (S j)) L_ANGLE -> apart T (S j) \/ no_args T (S (S j))) ->
    der (Prim false) i (N DOT_EXPR (f ++ tk DOT :: NREF)) (S (S j))
| pr_pos : forall bl i f j, der (Prim bl) i f j -> K j DOT -> K (S j) INT_NUMBER -> der (Prim false) i (N DOT_EXPR (f ++ tk DOT :: N NAME_REF [tk INT_NUMBER])) (S (S j))
| pr_method : forall bl i f j a k, der (Prim bl) i f j -> K j DOT -> K (S j) IDENT -> der Args (S (S j)) a k -> der (Prim false) i (N METHOD_CALL_EXPR (f ++ tk DOT :: NREF ++ a)) k
| pr_method_t : forall bl i f j b k a m, der (Prim bl) i f j -> K j DOT -> K (S j) IDENT -> (K (S (S j)) L_ANGLE -> ~ apart T (S j)) -> der EArgs (S (S j)) b k -> der Args k a m ->
    der (Prim false) i (N METHOD_CALL_EXPR (f ++ tk DOT :: NREF ++ b ++ a)) m
| args : forall i l j, K i L_PAREN -> der (Comma Arg R_PAREN) (S i) l j -> der Args i (N VALUE_ARG_LIST (tk L_PAREN :: l ++ [tk R_PAREN])) (S j)
| arg : forall t i c j, der (Ex 1 t) i c j -> der Arg i (N VALUE_ARG c) j
(** atoms *)
| a_lit : forall i c j, der Lit_ i c j -> der (Atom 255 false) i c j
| a_path : forall i p j, head i -> (K i IDENT -> ordinary i) -> der (Path MEx) i p j -> ~ K j L_CURLY -> der (Atom 255 false) i (N PATH_EXPR p) j
| a_struct : forall i p j l k, head i -> (K i IDENT -> ordinary i) -> der (Path MEx) i p j -> K j L_CURLY -> der (Comma SField R_CURLY) (S j) l k ->
    der (Atom 255 false) i (N STRUCT_LIT (p ++ N STRUCT_LIT_FIELD_LIST (tk L_CURLY :: l ++ [tk R_CURLY]))) (S k)
| sf_named : forall i t c j, K i IDENT -> K (S i) COLON -> der (Ex 1 t) (S (S i)) c j -> der SField i (N STRUCT_LIT_FIELD (NREF ++ tk COLON :: c)) j
| sf_short : forall i t c j, K i IDENT -> ~ K (S i) COLON -> der (Ex 1 t) i c j -> der SField i (N STRUCT_LIT_FIELD c) j
| a_unit : forall i, K i L_PAREN -> K (S i) R_PAREN -> der (Atom 255 false) i (N UNIT_EXPR [tk L_PAREN; tk R_PAREN]) (S (S i))
| a_paren : forall i t c j, K i L_PAREN -> der (Ex 1 t) (S i) c j -> K j R_PAREN -> der (Atom 255 false) i (N PAREN_EXPR (tk L_PAREN :: c ++ [tk R_PAREN])) (S j)
| a_annot : forall i t c j ty k, K i L_PAREN -> der (Ex 1 t) (S i) c j -> K j COLON -> der (Type_ true) (S j) ty k -> K k R_PAREN ->
    der (Atom 255 false) i (N ANNOTATED_EXPR (tk L_PAREN :: c ++ tk COLON :: ty ++ [tk R_PAREN])) (S k)
| a_tuple : forall i t c j l k, K i L_PAREN -> der (Ex 1 t) (S i) c j -> K j COMMA -> der (Comma Expr R_PAREN) (S j) l k ->
    der (Atom 255 false) i (N TUPLE_EXPR (tk L_PAREN :: c ++ tk COMMA :: l ++ [tk R_PAREN])) (S k)
| a_vector : forall i a j l k, kw i "vector" -> among (S i) [L_BRACK; L_ANGLE] -> der (SegArgs (MTy true)) (S i) a j -> K j L_BRACK -> der (Comma Expr R_BRACK) (S j) l k ->
    der (Atom 255 false) i (N VECTOR_LIT_EXPR (tk IDENT :: a ++ tk L_BRACK :: l ++ [tk R_BRACK])) (S k)
| a_assert : forall i s a j, In s assert_names -> kw i s -> K (S i) BANG -> der Args (S (S i)) a j -> der (Atom 255 false) i (N ASSERT_MACRO_EXPR (tk IDENT :: tk BANG :: a)) j
| a_block : forall i c j, der Block i c j -> der (Atom 255 true) i c j
| a_if : forall i c j t b k, K i IF_KW -> der Cond (S i) c j -> der (Branch t) j b k -> ~ K k ELSE_KW -> der (Atom t true) i (N IF_EXPR (tk IF_KW :: c ++ b)) k
| a_if_else : forall i c j t b k t' d m, K i IF_KW -> der Cond (S i) c j -> der (Branch t) j b k -> K k ELSE_KW -> der (Branch t') (S k) d m ->
    der (Atom t' true) i (N IF_EXPR (tk IF_KW :: c ++ b ++ tk ELSE_KW :: d)) m
| a_loop : forall k t i c j, der (Loop k t) i c j -> der (Atom t true) i (N k c) j
| a_labelled : forall k t i c j, K i QUOTE_IDENT -> K (S i) COLON -> der (Loop k t) (S (S i)) c j -> der (Atom t true) i (N k (N LABEL_DECL [tk QUOTE_IDENT; tk COLON] ++ c)) j
| a_match : forall i t c j l k, kw i "match" -> K (S i) L_PAREN -> der (Ex 1 t) (S (S i)) c j -> K j R_PAREN -> K (S j) L_CURLY -> der Arms (S (S j)) l k ->
    der (Atom 255 true) i (N MATCH_EXPR (tk MATCH_KW :: tk L_PAREN :: c ++ tk R_PAREN :: N MATCH_ARM_LIST (tk L_CURLY :: l ++ [tk R_CURLY]))) (S k)
| a_return : forall i t c j, K i RETURN_KW -> der (MExpr t) (S i) c j -> der (Atom 0 false) i (N RETURN_EXPR (tk RETURN_KW :: c)) j
| a_abort : forall i t c j, K i ABORT_KW -> der (MExpr t) (S i) c j -> der (Atom 0 false) i (N ABORT_EXPR (tk ABORT_KW :: c)) j
| a_break : forall i t c j, K i BREAK_KW -> ~ K (S i) QUOTE_IDENT -> der (MExpr t) (S i) c j -> der (Atom 0 false) i (N BREAK_EXPR (tk BREAK_KW :: c)) j
| a_break_label : forall i t c j, K i BREAK_KW -> K (S i) QUOTE_IDENT -> der (MExpr t) (S (S i)) c j -> der (Atom 0 false) i (N BREAK_EXPR (tk BREAK_KW :: N LABEL [tk QUOTE_IDENT] ++ c)) j
| a_continue : forall i, K i CONTINUE_KW -> ~ K (S i) QUOTE_IDENT -> der (Atom 0 false) i (N CONTINUE_EXPR [tk CONTINUE_KW]) (S i)
| a_continue_label : forall i, K i CONTINUE_KW -> K (S i) QUOTE_IDENT -> der (Atom 0 false) i (N CONTINUE_EXPR (tk CONTINUE_KW :: N LABEL [tk QUOTE_IDENT])) (S (S i))
| me_none : forall i, ~ among i starts_operand -> der (MExpr 0) i [] i
| me_some : forall t i c j, ~ K i MINUS -> der (Ex 1 t) i c j -> der (MExpr t) i c j
(** blocks *)
| cond : forall i t c j, K i L_PAREN -> der (Ex 1 t) (S i) c j -> K j R_PAREN -> der Cond i (N CONDITION (tk L_PAREN :: c ++ [tk R_PAREN])) (S j)
| br_block : forall i c j, der Block i c j -> der (Branch 255) i c j
| br_inline : forall i t c j, ~ K i L_CURLY -> der (Ex 1 t) i c j -> der (Branch 0) i (N INLINE_EXPR c) j
| l_loop : forall i t c j, K i LOOP_KW -> der (Branch t) (S i) c j -> der (Loop LOOP_EXPR t) i (tk LOOP_KW :: c) j
| l_while : forall i c j t b k, K i WHILE_KW -> der Cond (S i) c j -> der (Branch t) j b k -> ~ K k SPEC_KW -> der (Loop WHILE_EXPR t) i (tk WHILE_KW :: c ++ b) k
| l_for : forall i t0 c j t b k, kw i "for" -> K (S i) L_PAREN -> id (S (S i)) -> kw (S (S (S i))) "in" -> der (Ex 1 t0) (S (S (S (S i)))) c j -> K j R_PAREN -> der (Branch t) (S j) b k ->
    der (Loop FOR_EXPR t) i (tk FOR_KW :: N FOR_CONDITION (tk L_PAREN :: IPAT ++ tk IN_KW :: c ++ [tk R_PAREN]) ++ b) k
| arms_nil : forall i, K i R_CURLY -> der Arms i [] i
| arms_cons : forall i a j l k, der Arm i a j -> der Arms j l k -> der Arms i (a ++ l) k
| arm : forall i p j g k b m, der (Pat true) i p j -> der Guard j g k -> K k FAT_ARROW -> der ABody (S k) b m -> der Arm i (N MATCH_ARM (p ++ g ++ tk FAT_ARROW :: b)) m
| guard_none : forall i, ~ K i IF_KW -> der Guard i [] i
| guard : forall i t c j, K i IF_KW -> der (Ex 1 t) (S i) c j -> K j FAT_ARROW -> der Guard i (N MATCH_GUARD (tk IF_KW :: c)) j
| ab_expr : forall i t c j, ~ blockish i -> der (Ex 1 t) i c j -> K j COMMA -> der ABody i (c ++ [tk COMMA]) (S j)
| ab_last : forall i t c j, ~ blockish i -> der (Ex 1 t) i c j -> K j R_CURLY -> der ABody i c j
| ab_block : forall i t c j, der (Atom t true) i c j -> ends_block t j -> ~ K j COMMA -> der ABody i c j
| ab_block_comma : forall i t c j, der (Atom t true) i c j -> K j COMMA -> der ABody i (c ++ [tk COMMA]) (S j)
| block : forall i l j, K i L_CURLY -> der Stmts (S i) l j -> der Block i (N BLOCK_EXPR (tk L_CURLY :: l ++ [tk R_CURLY])) (S j)
| stmts_nil : forall i, K i R_CURLY -> der Stmts i [] i
| stmts_cons : forall i s j l k, der Stmt i s j -> der Stmts j l k -> der Stmts i (s ++ l) k
(** statements *)
| s_empty : forall i, K i SEMICOLON -> der Stmt i [tk SEMICOLON] (S i)
| s_let : forall i p j, K i LET_KW -> der (Pat true) (S i) p j -> K j SEMICOLON -> der Stmt i (N LET_STMT (tk LET_KW :: p ++ [tk SEMICOLON])) (S j)
| s_let_type : forall i p j t k, K i LET_KW -> der (Pat true) (S i) p j -> K j COLON -> der (Type_ true) (S j) t k -> K k SEMICOLON ->
    der Stmt i (N LET_STMT (tk LET_KW :: p ++ tk COLON :: t ++ [tk SEMICOLON])) (S k)
| s_let_init : forall i p j t c k, K i LET_KW -> der (Pat true) (S i) p j -> K j EQ -> der (Ex 1 t) (S j) c k -> K k SEMICOLON ->
    der Stmt i (N LET_STMT (tk LET_KW :: p ++ tk EQ :: c ++ [tk SEMICOLON])) (S k)
| s_let_all : forall i p j t k t' c m, K i LET_KW -> der (Pat true) (S i) p j -> K j COLON -> der (Type_ true) (S j) t k -> K k EQ -> der (Ex 1 t') (S k) c m -> K m SEMICOLON ->
    der Stmt i (N LET_STMT (tk LET_KW :: p ++ tk COLON :: t ++ tk EQ :: c ++ [tk SEMICOLON])) (S m)
| s_use : forall i u j, K i USE_KW -> der USpeck (S i) u j -> K j SEMICOLON -> der Stmt i (N USE_STMT (tk USE_KW :: u ++ [tk SEMICOLON])) (S j)
| s_expr : forall i t c j, ~ blockish i -> der (Ex 1 t) i c j -> K j SEMICOLON -> der Stmt i (N EXPR_STMT (c ++ [tk SEMICOLON])) (S j)
| s_last : forall i t c j, ~ blockish i -> der (Ex 1 t) i c j -> K j R_CURLY -> der Stmt i c j
| s_block : forall i t c j, der (Atom t true) i c j -> ends_block t j -> ~ among j [SEMICOLON; R_CURLY] -> der Stmt i (N EXPR_STMT c) j
| s_block_semi : forall i t c j, der (Atom t true) i c j -> K j SEMICOLON -> der Stmt i (N EXPR_STMT (c ++ [tk SEMICOLON])) (S j)
| s_block_last : forall i t c j, der (Atom t true) i c j -> K j R_CURLY -> der Stmt i c j
(** attributes *)
| attrs_nil : forall i, ~ K i POUND -> der Attrs i [] i
| attrs_cons : forall i a j l k, der Attr i a j -> der Attrs j l k -> der Attrs i (a ++ l) k
| attr : forall i l j, K i POUND -> K (S i) L_BRACK -> der (Comma AItem R_BRACK) (S (S i)) l j -> der Attr i (N ATTR (tk POUND :: tk L_BRACK :: l ++ [tk R_BRACK])) (S j)
| ai_plain : forall i p j, der (Path MNone) i p j -> ~ among j [EQ; L_PAREN] -> der AItem i (N ATTR_ITEM p) j
| ai_value : forall i p j t c k, der (Path MNone) i p j -> K j EQ -> der (Ex 1 t) (S j) c k -> among k [COMMA; R_BRACK; R_PAREN] -> der AItem i (N ATTR_ITEM (p ++ N INITIALIZER (tk EQ :: c))) k
| ai_list : forall i p j l k, der (Path MNone) i p j -> K j L_PAREN -> der (Comma AItem R_PAREN) (S j) l k -> der AItem i (N ATTR_ITEM (p ++ N ATTR_ITEM_LIST (tk L_PAREN :: l ++ [tk R_PAREN]))) (S k)
(** uses *)
| us_plain : forall i p j, head i -> der (Path MNone) i p j -> ~ among j [AS_KW; COLON_COLON] -> der USpeck i (N USE_SPECK p) j
| us_alias : forall i p j, head i -> der (Path MNone) i p j -> K j AS_KW -> id (S j) -> der USpeck i (N USE_SPECK (p ++ N USE_ALIAS (tk AS_KW :: NAME_))) (S (S j))
| us_group : forall i p j l k, head i -> der (Path MNone) i p j -> K j COLON_COLON -> K (S j) L_CURLY -> der (Comma USpeck R_CURLY) (S (S j)) l k ->
    der USpeck i (N USE_SPECK (p ++ tk COLON_COLON :: N USE_GROUP (tk L_CURLY :: l ++ [tk R_CURLY]))) (S k)
(** structs and enums *)
| field : forall i t j, id i -> K (S i) COLON -> der (Type_ true) (S (S i)) t j -> der Field i (N NAMED_FIELD (NAME_ ++ tk COLON :: t)) j
| tfield : forall i t j, der (Type_ true) i t j -> der TField i (N TUPLE_FIELD t) j
| has_none : forall i, ~ kw i "has" -> der Has i [] i
| has : forall i a j, kw i "has" -> der (Abils COMMA) (S i) a j -> among j [L_CURLY; L_PAREN; SEMICOLON] -> der Has i (N ABILITY_LIST (tk HAS_KW :: a)) j
| hs_none : forall i, ~ kw i "has" -> der HasSemi i [] i
| hs_some : forall i a j, kw i "has" -> der (Abils COMMA) (S i) a j -> K j SEMICOLON -> der HasSemi i (N ABILITY_LIST (tk HAS_KW :: a) ++ [tk SEMICOLON]) (S j)
| vars_end : forall i, K i R_CURLY -> der Vars i [] i
| vars_last : forall c i v j, der (Variant c) i v j -> K j R_CURLY -> der Vars i v j
| vars_comma : forall c i v j l k, der (Variant c) i v j -> K j COMMA -> der Vars (S j) l k -> der Vars i (v ++ tk COMMA :: l) k
| vars_next : forall i v j l k, der (Variant true) i v j -> ~ among j [COMMA; R_CURLY] -> der Vars j l k -> der Vars i (v ++ l) k
| var_unit : forall i a j, der Attrs i a j -> id j -> ~ among (S j) [L_CURLY; L_PAREN] -> der (Variant false) i (N VARIANT (a ++ NAME_)) (S j)
| var_tuple : forall i a j l k, der Attrs i a j -> id j -> K (S j) L_PAREN -> der (Comma TField R_PAREN) (S (S j)) l k ->
    der (Variant false) i (N VARIANT (a ++ NAME_ ++ N TUPLE_FIELD_LIST (tk L_PAREN :: l ++ [tk R_PAREN]))) (S k)
| var_named : forall i a j l k, der Attrs i a j -> id j -> K (S j) L_CURLY -> der (Comma Field R_CURLY) (S (S j)) l k ->
    der (Variant true) i (N VARIANT (a ++ NAME_ ++ N NAMED_FIELD_LIST (tk L_CURLY :: l ++ [tk R_CURLY]))) (S k)
(** functions *)
| vis_public : forall i, K i PUBLIC_KW -> ~ K (S i) L_PAREN -> der Vis i (N VISIBILITY_MODIFIER [tk PUBLIC_KW]) (S i)
| vis_public_package : forall i, K i PUBLIC_KW -> K (S i) L_PAREN -> kw (S (S i)) "package" -> K (S (S (S i))) R_PAREN ->
    der Vis i (N VISIBILITY_MODIFIER [tk PUBLIC_KW; tk L_PAREN; tk PACKAGE_KW; tk R_PAREN]) (S (S (S (S i))))
| vis_public_kw : forall i k, In k [FRIEND_KW; SCRIPT_KW] -> K i PUBLIC_KW -> K (S i) L_PAREN -> K (S (S i)) k -> K (S (S (S i))) R_PAREN ->
    der Vis i (N VISIBILITY_MODIFIER [tk PUBLIC_KW; tk L_PAREN; tk k; tk R_PAREN]) (S (S (S (S i))))
| vis_friend : forall i, K i FRIEND_KW -> der Vis i (N VISIBILITY_MODIFIER [tk FRIEND_KW]) (S i)
| vis_package : forall i, kw i "package" -> der Vis i (N VISIBILITY_MODIFIER [tk PACKAGE_KW]) (S i)
| ov_none : forall i, der OVis i [] i
| ov_some : forall i c j, der Vis i c j -> der OVis i c j
| mod_vis : forall i c j, der Vis i c j -> der Mod_ i c j
| mod_kw : forall i k, In k [NATIVE_KW; INLINE_KW] -> K i k -> der Mod_ i [tk k] (S i)
| mod_entry : forall i, kw i "entry" -> der Mod_ i [tk ENTRY_KW] (S i)
| mods_nil : forall i, K i FUN_KW -> der Mods i [] i
| mods_cons : forall i c j l k, der Mod_ i c j -> der Mods j l k -> der Mods i (c ++ l) k
| param_id : forall i t j, id i -> K (S i) COLON -> der (Type_ true) (S (S i)) t j -> der Param i (N PARAM (IPAT ++ tk COLON :: t)) j
| param_wild : forall i t j, K i UNDERSCORE -> K (S i) COLON -> der (Type_ true) (S (S i)) t j -> der Param i (N PARAM (WPAT ++ tk COLON :: t)) j
| params : forall i l j, K i L_PAREN -> der (Comma Param R_PAREN) (S i) l j -> der Params i (N PARAM_LIST (tk L_PAREN :: l ++ [tk R_PAREN])) (S j)
| ret_none : forall i, ~ K i COLON -> der RetTy i [] i
| ret_some : forall i t j, K i COLON -> der (Type_ true) (S i) t j -> der RetTy i (N RET_TYPE (tk COLON :: t)) j
| acq_none : forall i, ~ K i ACQUIRES_KW -> der Acq i [] i
| acq_some : forall i l j, K i ACQUIRES_KW -> der PathTys (S i) l j -> among j [L_CURLY; SEMICOLON] -> der Acq i (N ACQUIRES (tk ACQUIRES_KW :: l)) j
| pts_one : forall i p j, head i -> der (Path (MTy true)) i p j -> der PathTys i (N PATH_TYPE p) j
| pts_more : forall i p j l k, head i -> der (Path (MTy true)) i p j -> K j COMMA -> der PathTys (S j) l k -> der PathTys i (N PATH_TYPE p ++ tk COMMA :: l) k
| fb_block : forall i c j, der Block i c j -> der FBody i c j
| fb_semi : forall i, K i SEMICOLON -> der FBody i [tk SEMICOLON] (S i)
(** items *)
| i_use : forall i a j u k, der Attrs i a j -> K j USE_KW -> der USpeck (S j) u k -> K k SEMICOLON -> der Item i (N USE_STMT (a ++ tk USE_KW :: u ++ [tk SEMICOLON])) (S k)
| i_friend : forall i a j p k, der Attrs i a j -> K j FRIEND_KW -> head (S j) -> ~ kw (S j) "entry" -> der (Path MNone) (S j) p k -> K k SEMICOLON -> der Item i (N FRIEND (a ++ tk FRIEND_KW :: p ++ [tk SEMICOLON])) (S k)
| i_const : forall i a j v k ty m t c n, der Attrs i a j -> der OVis j v k -> K k CONST_KW -> id (S k) -> K (S (S k)) COLON -> der (Type_ true) (S (S (S k))) ty m -> K m EQ -> der (Ex 1 t) (S m) c n -> K n SEMICOLON ->
    der Item i (N CONST (a ++ v ++ tk CONST_KW :: NAME_ ++ tk COLON :: ty ++ N INITIALIZER (tk EQ :: c) ++ [tk SEMICOLON])) (S n)
| i_struct : forall i a j v k p m h n l q s r, der Attrs i a j -> der OVis j v k -> K k STRUCT_KW -> id (S k) -> der TParams (S (S k)) p m -> der Has m h n -> K n L_CURLY ->
    der (Comma Field R_CURLY) (S n) l q -> der HasSemi (S q) s r ->
    der Item i (N STRUCT (a ++ v ++ tk STRUCT_KW :: NAME_ ++ p ++ h ++ N NAMED_FIELD_LIST (tk L_CURLY :: l ++ [tk R_CURLY]) ++ s)) r
| i_struct_unit : forall i a j v k p m, der Attrs i a j -> der OVis j v k -> K k STRUCT_KW -> id (S k) -> der TParams (S (S k)) p m -> K m SEMICOLON ->
    der Item i (N STRUCT (a ++ v ++ tk STRUCT_KW :: NAME_ ++ p ++ [tk SEMICOLON])) (S m)
| i_struct_tuple : forall i a j v k p m h n l q s r, der Attrs i a j -> der OVis j v k -> K k STRUCT_KW -> id (S k) -> der TParams (S (S k)) p m -> der Has m h n -> K n L_PAREN ->
    der (Comma TField R_PAREN) (S n) l q -> der Has (S q) s r -> K r SEMICOLON ->
    der Item i (N STRUCT (a ++ v ++ tk STRUCT_KW :: NAME_ ++ p ++ h ++ N TUPLE_FIELD_LIST (tk L_PAREN :: l ++ [tk R_PAREN]) ++ s ++ [tk SEMICOLON])) (S r)
| i_enum : forall i a j v k p m h n l q s r, der Attrs i a j -> der OVis j v k -> kw k "enum" -> id (S k) -> der TParams (S (S k)) p m -> der Has m h n -> K n L_CURLY ->
    der Vars (S n) l q -> der HasSemi (S q) s r ->
    der Item i (N ENUM (a ++ v ++ tk ENUM_KW :: NAME_ ++ p ++ h ++ N VARIANT_LIST (tk L_CURLY :: l ++ [tk R_CURLY]) ++ s)) r
| i_fun : forall i a j v k d m p n l q r w u x b z, der Attrs i a j -> der OVis j v k -> among k [FUN_KW; NATIVE_KW; INLINE_KW] \/ kw k "entry" -> der Mods k d m -> id (S m) -> der TParams (S (S m)) p n ->
    der Params n l q -> der RetTy q r w -> der Acq w u x -> der FBody x b z ->
    der Item i (N FUN (a ++ v ++ d ++ tk FUN_KW :: NAME_ ++ p ++ l ++ r ++ u ++ b)) z
| items_nil : forall i, K i R_CURLY -> der Items i [] i
| items_cons : forall i c j l k, der Item i c j -> ~ K j SEMICOLON -> der Items j l k -> der Items i (c ++ l) k
(** files *)
| addr_num : forall i, K i INT_NUMBER -> der Addr i (N VALUE_ADDRESS [tk INT_NUMBER]) (S i)
| addr_name : forall i, K i IDENT -> der Addr i (N NAMED_ADDRESS [tk IDENT]) (S i)
| module_addr : forall i a j l k, K i MODULE_KW -> der Addr (S i) a j -> K j COLON_COLON -> id (S j) -> K (S (S j)) L_CURLY -> der Items (S (S (S j))) l k ->
    der Module_ i (tk MODULE_KW :: a ++ tk COLON_COLON :: NAME_ ++ tk L_CURLY :: l ++ [tk R_CURLY]) (S k)
| module_bare : forall i l k, K i MODULE_KW -> id (S i) -> K (S (S i)) L_CURLY -> der Items (S (S (S i))) l k -> der Module_ i (tk MODULE_KW :: NAME_ ++ tk L_CURLY :: l ++ [tk R_CURLY]) (S k)
| modules_nil : forall i, K i R_CURLY -> der Modules i [] i
| modules_cons : forall i a j m k l n, der Attrs i a j -> der Module_ j m k -> der Modules k l n -> der Modules i (N MODULE (a ++ m) ++ l) n
| top_module : forall i a j m k, der Attrs i a j -> der Module_ j m k -> der Top i (N MODULE (a ++ m)) k
| top_script : forall i a j l k, der Attrs i a j -> K j SCRIPT_KW -> K (S j) L_CURLY -> der Items (S (S j)) l k -> der Top i (N SCRIPT (a ++ tk SCRIPT_KW :: tk L_CURLY :: l ++ [tk R_CURLY])) (S k)
| top_address : forall i a j d k l m, der Attrs i a j -> kw j "address" -> der Addr (S j) d k -> K k L_CURLY -> der Modules (S k) l m ->
    der Top i (N ADDRESS_DEF (a ++ tk ADDRESS_KW :: d ++ tk L_CURLY :: l ++ [tk R_CURLY])) (S m)
| file_nil : forall i, K i EOF -> der File i [] i
| file_cons : forall i c j l k, der Top i c j -> der File j l k -> der File i (c ++ l) k.
End Grammar.
