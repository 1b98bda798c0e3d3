(** How expressions are meant to be read (C20): the operator table, expression trees, the tokens that spell
    a tree and the tree calls that build it.  Nothing here mentions the parser's own functions. *)
From Coq Require Import String.
From Verif Require Import Base SyntaxKind ParserModel ParserProps AddressModel.
Close Scope string_scope.
Open Scope list_scope.

(** the levels of the table at expressions.rs:382-436, from the loosest to the tightest *)
Definition levels : list (nat * list kind) :=
  [(1, [EQ; SHR_EQ; LESS_IMPLIES; SHL_EQ; IMPLIES; PLUS_EQ; MINUS_EQ; STAR_EQ; SLASH_EQ; PIPE_EQ; CARET_EQ; AMP_EQ; PERCENT_EQ]);
   (3, [DOT_DOT]); (4, [PIPE_PIPE]); (5, [AMP_AMP]); (6, [GT_EQ; R_ANGLE; LT_EQ; L_ANGLE; NOT_EQ; EQ_EQ]); (7, [PIPE]); (8, [CARET]); (9, [AMP]);
   (10, [SHR; SHL]); (11, [PLUS; MINUS]); (12, [PERCENT; SLASH; STAR])].
Definition power (k : kind) : option nat :=
  option_map fst (find (fun l => existsb (kind_eqb k) (snd l)) levels).

Inductive expr :=
| Lit (k : kind)                (* number, string, true, false *)
| Var                           (* a name *)
| Paren (e : expr)
| Un (k : kind) (e : expr)      (* - ! * & move *)
| BorrowMut (e : expr)
| Dot (e : expr)                (* a field *)
| Index (e i : expr)
| Bin (k : kind) (l r : expr).

Definition literals : list kind := [INT_NUMBER; BYTE_STRING; HEX_STRING; TRUE_KW; FALSE_KW].
Definition prefixes : list (kind * kind) := [(AMP, BORROW_EXPR); (MOVE_KW, RESOURCE_EXPR); (STAR, DEREF_EXPR); (BANG, BANG_EXPR); (MINUS, MINUS_EXPR)].

(** * Precedence *)
Definition primary (e : expr) : bool := match e with Lit _ | Var | Paren _ | Dot _ | Index _ _ => true | _ => false end.
Definition operand (e : expr) : bool := match e with Bin _ _ _ => false | _ => true end.
(** the operator at the root binds at least this much; everything that is not a binary operator does *)
Definition binds (q : nat) (e : expr) : Prop := match e with Bin k _ _ => exists q', power k = Some q' /\ q <= q' | _ => True end.
(** tighter operators are nested deeper, equal ones to the left; prefixes bind tighter than all, postfixes still tighter *)
Fixpoint ordered (e : expr) : Prop :=
  match e with
  | Lit k => In k literals
  | Var => True
  | Paren e => ordered e
  | Un k e => In k (map fst prefixes) /\ operand e = true /\ ordered e
  | BorrowMut e => operand e = true /\ ordered e
  | Dot e => primary e = true /\ ordered e
  | Index e i => primary e = true /\ ordered e /\ ordered i
  | Bin k l r => exists q, power k = Some q /\ binds q l /\ binds (S q) r /\ ordered l /\ ordered r
  end.
(** the operands and operators in order *)
Fixpoint flat (e : expr) : list (expr + kind) :=
  match e with Bin k l r => flat l ++ inr k :: flat r | e => [inl e] end.

(** * Spelling *)
Definition toks := list (raw_token * nat).
Definition kind_at (T : toks) (i : nat) : kind := match nth_error T i with Some (t, _) => rt_kind t | None => EOF end.
(** nothing between a token and the next *)
Definition touching (T : toks) (i : nat) : bool :=
  match nth_error T i, nth_error T (S i) with Some (t, o), Some (_, o') => o + rt_len t =? o' | _, _ => false end.
Fixpoint joined (T : toks) (i : nat) (ks : list kind) : bool :=
  match ks with
  | [] => true
  | [k] => kind_eqb (kind_at T i) k
  | k :: ks => kind_eqb (kind_at T i) k && touching T i && joined T (S i) ks
  end.
Definition parts (k : kind) : list kind := match spelling k with Some ks => ks | None => [k] end.
Definition width (k : kind) : nat := length (parts k).
(** the operator [k] is written here and no longer one is *)
Definition op_at (T : toks) (i : nat) (k : kind) : Prop :=
  joined T i (parts k) = true /\ forall k' q, power k' = Some q -> joined T i (parts k') = true -> width k' <= width k.
(** the '<' here does not begin type arguments: what follows it is not a type, or a name that is not followed by the rest of a list *)
Definition no_args (T : toks) (i : nat) : Prop :=
  ~ In (kind_at T (S i)) [AMP; PIPE; UNDERSCORE; R_ANGLE] /\ (kind_at T (S i) = INT_NUMBER -> kind_at T (S (S i)) <> COLON_COLON) /\
  (kind_at T (S i) = IDENT -> ~ In (kind_at T (S (S i))) [L_ANGLE; COLON_COLON; COMMA; R_ANGLE; IDENT; INT_NUMBER; UNDERSCORE]).
(** something between a token and the next *)
Definition apart (T : toks) (i : nat) : Prop :=
  match nth_error T i, nth_error T (S i) with Some (t, o), Some (_, o') => o + rt_len t < o' | _, _ => False end.
(** names that begin something else where an expression is expected *)
Definition special_names : list string :=
  ["forall"; "exists"; "choose"; "copy"; "vector"; "match"; "for"; "assert"; "assert_eq"; "assert_ne"; "debug_assert"; "debug_assert_eq"; "debug_assert_ne";
   "requires_of"; "aborts_of"; "ensures_of"; "result_of"]%string.
Section Spelling.
Variable T : toks.
Variable X : list text.           (* the texts of the tokens *)
Definition plain (i : nat) : Prop := forall s, In s special_names -> nth i X [] <> str s.
Inductive spells : nat -> expr -> nat -> Prop :=
| sp_lit : forall i k, kind_at T i = k -> (k = INT_NUMBER -> kind_at T (S i) <> COLON_COLON) -> spells i (Lit k) (S i)
| sp_var : forall i, kind_at T i = IDENT -> plain i -> ~ In (kind_at T (S i)) [COLON_COLON; L_CURLY] -> (kind_at T (S i) = L_ANGLE -> no_args T (S i)) -> spells i Var (S i)
| sp_paren : forall i e j, kind_at T i = L_PAREN -> plain i -> spells (S i) e j -> kind_at T j = R_PAREN -> spells i (Paren e) (S j)
| sp_un : forall i k e j, kind_at T i = k -> (k = AMP -> kind_at T (S i) <> MUT_KW) -> spells (S i) e j -> spells i (Un k e) j
| sp_mut : forall i e j, kind_at T i = AMP -> kind_at T (S i) = MUT_KW -> spells (S (S i)) e j -> spells i (BorrowMut e) j
| sp_dot : forall i e j, spells i e j -> kind_at T j = DOT -> kind_at T (S j) = IDENT -> ~ In (kind_at T (S (S j))) [L_PAREN; COLON_COLON] -> (kind_at T (S (S j)) = L_ANGLE -> apart T (S j) \/ no_args T (S (S j))) -> spells i (Dot e) (S (S j))
| sp_index : forall i e j x k, spells i e j -> kind_at T j = L_BRACK -> spells (S j) x k -> kind_at T k = R_BRACK -> spells i (Index e x) (S k)
| sp_bin : forall i l j k r m, spells i l j -> op_at T j k -> (k = DOT_DOT -> kind_at T (S j) <> MINUS) -> spells (j + width k) r m -> spells i (Bin k l r) m.
(** what follows is not part of the expression: no operator that binds so tightly, no call, index or field *)
Definition ends (bp : nat) (j : nat) : Prop :=
  (forall k q, op_at T j k -> power k = Some q -> q < bp) /\ ~ In (kind_at T j) [L_PAREN; L_BRACK; DOT; AS_KW] /\ (kind_at T j = IDENT -> nth j X [] <> str "is").
End Spelling.

(** * Trees *)
Fixpoint calls (e : expr) : list call :=
  match e with
  | Lit k => [CStart LITERAL; CToken k 1; CFinish]
  | Var => [CStart PATH_EXPR; CStart PATH; CStart PATH_SEGMENT; CStart NAME_REF; CToken IDENT 1; CFinish; CFinish; CFinish; CFinish]
  | Paren e => CStart PAREN_EXPR :: CToken L_PAREN 1 :: calls e ++ [CToken R_PAREN 1; CFinish]
  | Un k e => CStart (match find (fun p => kind_eqb (fst p) k) prefixes with Some (_, n) => n | None => ERROR end) :: CToken k 1 :: calls e ++ [CFinish]
  | BorrowMut e => CStart BORROW_EXPR :: CToken AMP 1 :: CToken MUT_KW 1 :: calls e ++ [CFinish]
  | Dot e => CStart DOT_EXPR :: calls e ++ [CToken DOT 1; CStart NAME_REF; CToken IDENT 1; CFinish; CFinish]
  | Index e i => CStart INDEX_EXPR :: calls e ++ CToken L_BRACK 1 :: calls i ++ [CToken R_BRACK 1; CFinish]
  | Bin k l r => CStart (if kind_eqb k DOT_DOT then RANGE_EXPR else BIN_EXPR) :: calls l ++ CToken k (width k) :: calls r ++ [CFinish]
  end.
