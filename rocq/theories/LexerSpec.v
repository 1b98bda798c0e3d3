(** What tokenising must achieve (C14), without the lexer's own functions. *)
From Coq Require Import String.
From Verif Require Import Base SyntaxKind AddressModel ParserModel.
Local Open Scope string_scope.
Local Open Scope N_scope.

(** UTF-8 *)
Definition utf8 (c : N) : text :=
  if c <? 128 then [c]
  else if c <? 2048 then [192 + c / 64; 128 + c mod 64]
  else if c <? 65536 then [224 + c / 4096; 128 + (c / 64) mod 64; 128 + c mod 64]
  else [240 + c / 262144; 128 + (c / 4096) mod 64; 128 + (c / 64) mod 64; 128 + c mod 64].
Definition encode (t : list N) : text := flat_map utf8 t.
Definition scalar (c : N) : Prop := c < 1114112.
Definition ascii (c : N) : Prop := c < 128.

(** A nested block comment after its opening: the text that follows the opening up to and with the matching
    end, or everything if there is none. *)
Inductive comment_rest : nat -> list N -> list N -> Prop :=
| cr_end : forall d, comment_rest d [] []
| cr_last : forall d c, comment_rest d [c] [c]
| cr_open : forall d t a, comment_rest (S d) t a -> comment_rest d (47 :: 42 :: t) (47 :: 42 :: a)
| cr_close : forall t, comment_rest 0 (42 :: 47 :: t) [42; 47]
| cr_inner : forall d t a, comment_rest d t a -> comment_rest (S d) (42 :: 47 :: t) (42 :: 47 :: a)
| cr_char : forall d c e t a, ~ (c = 47 /\ e = 42) -> ~ (c = 42 /\ e = 47) -> comment_rest d (e :: t) a -> comment_rest d (c :: e :: t) (c :: a).
(** Wherever a block comment may start in [t], it is plain ASCII. *)
Definition ascii_comments (t : list N) : Prop :=
  forall a b c, t = (a ++ 47 :: 42 :: b)%list -> comment_rest 0 b c -> Forall ascii c.

(** kinds with one spelling only *)
Definition spelling (k : kind) : option string :=
  match k with
  | SEMICOLON => Some ";" | COMMA => Some "," | L_PAREN => Some "(" | R_PAREN => Some ")" | L_CURLY => Some "{" | R_CURLY => Some "}"
  | L_BRACK => Some "[" | R_BRACK => Some "]" | L_ANGLE => Some "<" | R_ANGLE => Some ">" | AT => Some "@" | POUND => Some "#"
  | AMP => Some "&" | PIPE => Some "|" | PLUS => Some "+" | STAR => Some "*" | SLASH => Some "/" | CARET => Some "^" | PERCENT => Some "%"
  | UNDERSCORE => Some "_" | DOT => Some "." | DOT_DOT => Some ".." | COLON => Some ":" | COLON_COLON => Some "::" | EQ => Some "="
  | EQ_EQ => Some "==" | FAT_ARROW => Some "=>" | IMPLIES => Some "==>" | BANG => Some "!" | NOT_EQ => Some "!=" | MINUS => Some "-"
  | PLUS_EQ => Some "+=" | MINUS_EQ => Some "-=" | PIPE_EQ => Some "|=" | AMP_EQ => Some "&=" | CARET_EQ => Some "^="
  | SLASH_EQ => Some "/=" | STAR_EQ => Some "*=" | PERCENT_EQ => Some "%="
  | MODULE_KW => Some "module" | SCRIPT_KW => Some "script" | SPEC_KW => Some "spec" | FUN_KW => Some "fun" | STRUCT_KW => Some "struct"
  | CONST_KW => Some "const" | FRIEND_KW => Some "friend" | USE_KW => Some "use" | PUBLIC_KW => Some "public" | NATIVE_KW => Some "native"
  | IF_KW => Some "if" | ELSE_KW => Some "else" | TRUE_KW => Some "true" | FALSE_KW => Some "false" | LOOP_KW => Some "loop"
  | WHILE_KW => Some "while" | CONTINUE_KW => Some "continue" | BREAK_KW => Some "break" | AS_KW => Some "as" | RETURN_KW => Some "return"
  | MOVE_KW => Some "move" | LET_KW => Some "let" | MUT_KW => Some "mut" | ABORT_KW => Some "abort" | INVARIANT_KW => Some "invariant"
  | ACQUIRES_KW => Some "acquires" | INLINE_KW => Some "inline"
  | _ => None
  end.
(** kinds the lexer produces besides *)
Definition free_kind (k : kind) : bool :=
  match k with WHITESPACE | COMMENT | BAD_CHARACTER | INT_NUMBER | IDENT | QUOTE_IDENT | BYTE_STRING | HEX_STRING => true | _ => false end.

Definition letter (c : N) : Prop := 97 <= c <= 122 \/ 65 <= c <= 90 \/ c = 95.
Definition digit (c : N) : Prop := 48 <= c <= 57.
(** names: letters, digits and underscores, and none of the words above *)
Definition is_name (t : list N) : Prop :=
  (exists c r, t = c :: r /\ letter c /\ Forall (fun x => letter x \/ digit x) r) /\
  forall k s, spelling k = Some s -> t <> str s.
Definition blank (c : N) : Prop := c = 32 \/ c = 9 \/ c = 10.
(** one unit of a byte string *)
Inductive bs_units : list N -> Prop :=
| bu_nil : bs_units []
| bu_char : forall c t, c <> 34 -> c <> 92 -> bs_units t -> bs_units (c :: t)
| bu_esc : forall c t, c <> 10 -> bs_units t -> bs_units (92 :: c :: t).
(** what a token of a kind looks like *)
Definition token_shape (k : kind) (a : list N) : Prop :=
  match spelling k with
  | Some s => a = str s
  | None =>
      match k with
      | IDENT => is_name a
      | WHITESPACE => a <> [] /\ Forall blank a
      | QUOTE_IDENT => exists c r, a = 39 :: c :: r /\ letter c /\ Forall (fun x => letter x \/ digit x) r
      | INT_NUMBER => exists c r, a = c :: r /\ digit c /\ Forall (fun x => letter x \/ digit x) r
      | COMMENT => exists r, (a = 47 :: 47 :: r /\ ~ In 10 r) \/ a = 47 :: 42 :: r
      | HEX_STRING => exists r q, a = (str "x""" ++ r ++ q)%list /\ Forall (fun x => letter x \/ digit x) r /\ (q = [] \/ q = [34])
      | BYTE_STRING => exists r, a = (str "b""" ++ r)%list /\ ~ In 10 r /\ ((exists u, r = (u ++ [34])%list /\ bs_units u) \/ ~ exists u s, r = (u ++ [34] ++ s)%list /\ bs_units u)
      | BAD_CHARACTER => a <> []
      | _ => False
      end
  end.
