(** Model of the lexer: crates/syntax/src/parse/lexer.rs and crates/syntax/src/parse/lexer/move_model.rs.

    A source text is a list of Unicode scalar values; lengths and slice positions are UTF-8 byte counts as in
    the code.  The external calls are modelled as follows.
    - [unicode_segmentation::graphemes(true).next()]: a parameter [cluster] giving the number of characters
      of the first grapheme cluster.
    - the three regular expressions (move_model.rs:504-509): written out as the functions [hex_string_len],
      [byte_string_len] and [quote_ident_len]; the patterns are given again as relations in LexerSpec.v.
    - [str::lines] (Rust std): [first_line]. *)
From Coq Require Import String.
From Verif Require Import Base SyntaxKind AddressModel ParserModel.
Local Open Scope string_scope.
Local Open Scope N_scope.

Notation char := N.
Notation chars := (list N).
(** UTF-8 length of a character, [char::len_utf8] *)
Definition width (c : char) : nat := if c <? 128 then 1%nat else if c <? 2048 then 2%nat else if c <? 65536 then 3%nat else 4%nat.
(** [str::len] *)
Definition blen (t : chars) : nat := fold_right (fun c n => (width c + n)%nat) 0%nat t.
(** [(&t[..n], &t[n..])]; [None] where slicing panics: [n] past the end or inside a character *)
Fixpoint split_bytes (n : nat) (t : chars) : option (chars * chars) :=
  match n, t with
  | O, _ => Some ([], t)
  | S _, [] => None
  | S _, c :: r => if (width c <=? n)%nat then option_map (fun '(a, b) => (c :: a, b)) (split_bytes (n - width c) r) else None
  end.
Definition slice_from (n : nat) (t : chars) : res chars := match split_bytes n t with Some (_, b) => Ok b | None => Panic end.
Definition slice_to (n : nat) (t : chars) : res chars := match split_bytes n t with Some (a, _) => Ok a | None => Panic end.
(** [str::starts_with] *)
Fixpoint starts_with (p t : chars) : bool :=
  match p, t with [], _ => true | _, [] => false | a :: p', b :: t' => (a =? b) && starts_with p' t' end.
(** [t.chars().position(f)]: a number of characters *)
Fixpoint position (f : char -> bool) (t : chars) : option nat :=
  match t with [] => None | c :: r => if f c then Some O else option_map S (position f r) end.
(** [t.find(f)]: a number of bytes *)
Fixpoint find_bytes (f : char -> bool) (t : chars) : option nat :=
  match t with [] => None | c :: r => if f c then Some O else option_map (fun n => (width c + n)%nat) (find_bytes f r) end.
Definition unwrap_or (o : option nat) (d : nat) : nat := match o with Some n => n | None => d end.
(** [t.lines().next()] for a non-empty text: up to the first line feed, without it and a carriage return
    before it *)
Fixpoint up_to_lf (t : chars) : chars * bool :=
  match t with [] => ([], false) | c :: r => if c =? 10 then ([], true) else let '(a, f) := up_to_lf r in (c :: a, f) end.
Fixpoint strip_cr (t : chars) : chars := match t with [] => [] | [c] => if c =? 13 then [] else [c] | c :: r => c :: strip_cr r end.
Definition first_line (t : chars) : chars := let '(a, f) := up_to_lf t in if f then strip_cr a else a.

Definition between (a b c : char) : bool := (a <=? c) && (c <=? b).
Definition is_digit (c : char) : bool := between 48 57 c.
Definition is_lower (c : char) : bool := between 97 122 c.
Definition is_upper (c : char) : bool := between 65 90 c.
(** is_num, move_model.rs:428-435; is_alphabetic, l437-444 *)
Definition is_num (s : chars) : bool := match s with [c] => is_digit c | _ => false end.
Definition alpha_char (c : char) : bool := is_lower c || is_upper c || (c =? 95).
Definition is_alphabetic (s : chars) : bool := match s with [c] => alpha_char c | _ => false end.
Definition name_char (c : char) : bool := alpha_char c || is_digit c.

(** move_model.rs:18-101; the names are prefixed because many of them clash with [kind] *)
Inductive tok :=
| TEOF | TWhitespace | TLineComment | TBlockComment | TNumValue | TNumTypedValue | TByteStringValue | THexStringValue | TIdentifier
| TExclaim | TExclaimEqual | TPercent | TAmp | TMut | TLParen | TRParen | TLBracket | TRBracket | TStar | TPlus | TComma | TMinus
| TPeriod | TPeriodPeriod | TSlash | TColon | TColonColon | TSemicolon | TLess | TEqual | TPlusEqual | TSubEqual | TMulEqual
| TModEqual | TDivEqual | TBitOrEqual | TBitAndEqual | TXorEqual | TEqualEqual | TEqualGreater | TEqualEqualGreater | TGreater
| TCaret | TAbort | TAcquires | TAs | TBreak | TContinue | TCopy | TElse | TFalse | TIf | TInvariant | TLet | TLoop | TModule | TMove
| TNative | TPublic | TReturn | TSpec | TStruct | TTrue | TUse | TWhile | TLBrace | TPipe | TPipePipe | TRBrace | TFun | TScript
| TConst | TFriend | TNumSign | TAtSign | TInline | TLabel | TBadCharacter | TUnderscore.

Definition is (s : chars) (lit : string) : bool := text_eqb s (str lit).
(** get_name_len, l450-454; get_ws_len, l456-460 *)
Definition get_name_len (t : chars) : nat := unwrap_or (position (fun c => negb (name_char c)) t) (blen t).
Definition ws_char (c : char) : bool := (c =? 32) || (c =? 9) || (c =? 10).
Definition get_ws_len (t : chars) : nat := unwrap_or (position (fun c => negb (ws_char c)) t) (blen t).
(** get_number_maybe_with_suffix, l480-502 *)
Definition get_number_maybe_with_suffix (t : chars) (n : nat) : res (tok * nat) :=
  bind (slice_from n t) (fun rest =>
  let sw lit := starts_with (str lit) rest in
  Ok (if sw "u8" || sw "i8" then (TNumTypedValue, (n + 2)%nat)
      else if sw "u16" || sw "u32" || sw "u64" || sw "i16" || sw "i32" || sw "i64" then (TNumTypedValue, (n + 3)%nat)
      else if sw "u128" || sw "u256" || sw "i128" || sw "i256" then (TNumTypedValue, (n + 4)%nat)
      else (TNumValue, n))).
(** get_decimal_number, l462-468; get_hex_number, l471-476 *)
Definition get_decimal_number (t : chars) : res (tok * nat) :=
  get_number_maybe_with_suffix t (unwrap_or (position (fun c => negb (is_digit c || (c =? 95))) t) (blen t)).
Definition hex_char (c : char) : bool := between 97 102 c || between 65 70 c || is_digit c || (c =? 95).
Definition get_hex_number (t : chars) : res (tok * nat) :=
  get_number_maybe_with_suffix t (unwrap_or (find_bytes (fun c => negb (hex_char c)) t) (blen t)).

(** HEX_STRING_REGEX, l504-505, on the first line: x and a quote, letters and digits, possibly a quote *)
Fixpoint run_len (f : char -> bool) (t : chars) : nat * chars :=
  match t with [] => (O, []) | c :: r => if f c then let '(n, s) := run_len f r in ((width c + n)%nat, s) else (O, t) end.
Definition hex_string_len (line : chars) : option nat :=
  if starts_with (str "x""") line then
    let '(n, rest) := run_len (fun c => is_digit c || is_lower c || is_upper c) (skipn 2 line) in
    Some (2 + n + (if starts_with (str """") rest then 1 else 0))%nat
  else None.
(** BYTE_STRING_REGEX, l506-507: b and a quote, then characters other than quote and backslash or pairs of a
    backslash and any character but a line feed, then a quote *)
Fixpoint byte_string_tail (t : chars) : option nat :=
  match t with
  | [] => None
  | c :: r =>
      if c =? 34 then Some 1%nat
      else if c =? 92 then match r with
                           | [] => None
                           | d :: r' => if d =? 10 then None else option_map (fun n => (1 + width d + n)%nat) (byte_string_tail r')
                           end
      else option_map (fun n => (width c + n)%nat) (byte_string_tail r)
  end.
Definition byte_string_len (line : chars) : option nat :=
  if starts_with (str "b""") line then option_map (fun n => (2 + n)%nat) (byte_string_tail (skipn 2 line)) else None.
(** QUOTE_IDENT_REGEX, l508-509: an apostrophe and a name *)
Definition quote_ident_len (t : chars) : option nat :=
  match t with
  | q :: c :: r => if (q =? 39) && alpha_char c then Some (2 + fst (run_len name_char r))%nat else None
  | _ => None
  end.

(** get_block_comment_len, l511-551; the loop over the characters after the opening.  Every character adds
    one to [pos], whatever its length. *)
Fixpoint block_comment_loop (total : nat) (t : chars) (pos nested : nat) : nat :=
  match t with
  | [] => (2 + pos)%nat
  | curr :: r =>
      match r with
      | [] => total
      | next :: r' =>
          if (curr =? 47) && (next =? 42) then block_comment_loop total r' (pos + 2)%nat (S nested)
          else if (curr =? 42) && (next =? 47) then
            match nested with O => (2 + pos + 2)%nat | S k => block_comment_loop total r' (pos + 2)%nat k end
          else block_comment_loop total r (pos + 1)%nat nested
      end
  end.
Definition get_block_comment_len (t : chars) : res nat :=
  if starts_with (str "/*") t then bind (slice_from 2 t) (fun r => Ok (block_comment_loop (blen t) r 0 0)) else Panic.

(** get_name_token, l553-585 *)
Definition name_tokens : list (string * tok) :=
  [("abort", TAbort); ("acquires", TAcquires); ("as", TAs); ("break", TBreak); ("const", TConst); ("continue", TContinue); ("else", TElse);
   ("false", TFalse); ("fun", TFun); ("friend", TFriend); ("if", TIf); ("invariant", TInvariant); ("let", TLet); ("loop", TLoop);
   ("inline", TInline); ("module", TModule); ("move", TMove); ("native", TNative); ("public", TPublic); ("return", TReturn);
   ("script", TScript); ("spec", TSpec); ("struct", TStruct); ("true", TTrue); ("use", TUse); ("while", TWhile); ("mut", TMut);
   ("_", TUnderscore)].
Fixpoint lookup_name (l : list (string * tok)) (n : chars) : tok :=
  match l with [] => TIdentifier | (s, t) :: r => if is n s then t else lookup_name r n end.
Definition get_name_token (n : chars) : tok := lookup_name name_tokens n.

(** the arms from the ampersand on, l304-422: an operator character and what may follow it; the longer spelling
    first *)
Definition operators : list (string * list (string * tok) * tok) :=
  [("&", [("&=", TBitAndEqual)], TAmp); ("|", [("|=", TBitOrEqual)], TPipe);
   ("=", [("==>", TEqualEqualGreater); ("=>", TEqualGreater); ("==", TEqualEqual)], TEqual);
   ("!", [("!=", TExclaimEqual)], TExclaim); ("<", [], TLess); (">", [], TGreater); (":", [("::", TColonColon)], TColon);
   ("%", [("%=", TModEqual)], TPercent); ("(", [], TLParen); (")", [], TRParen); ("[", [], TLBracket); ("]", [], TRBracket);
   ("*", [("*=", TMulEqual)], TStar); ("+", [("+=", TPlusEqual)], TPlus); (",", [], TComma); ("-", [("-=", TSubEqual)], TMinus);
   (".", [("..", TPeriodPeriod)], TPeriod); ("/", [("/=", TDivEqual)], TSlash); (";", [], TSemicolon); ("^", [("^=", TXorEqual)], TCaret);
   ("{", [], TLBrace); ("}", [], TRBrace); ("#", [], TNumSign); ("@", [], TAtSign)].
Fixpoint longer (l : list (string * tok)) (t : chars) : option (tok * nat) :=
  match l with [] => None | (s, k) :: r => if starts_with (str s) t then Some (k, String.length s) else longer r t end.
Fixpoint find_operator (l : list (string * list (string * tok) * tok)) (curr t : chars) : tok * nat :=
  match l with
  | [] => (TBadCharacter, blen curr)
  | (s, ls, k) :: r => if is curr s then match longer ls t with Some x => x | None => (k, 1%nat) end else find_operator r curr t
  end.

Section Lexer.
Variable cluster : chars -> nat.

(** find_token, l237-426 *)
Definition find_token (t : chars) : res (tok * nat) :=
  match t with
  | [] => Ok (TEOF, O)
  | _ =>
      let curr := firstn (cluster t) t in
      if is curr "/" && starts_with (str "//") t then Ok (TLineComment, blen (first_line t))
      else if is curr "/" && starts_with (str "/*") t then bind (get_block_comment_len t) (fun n => Ok (TBlockComment, n))
      else if is curr " " || text_eqb curr [9] || text_eqb curr [10] then Ok (TWhitespace, get_ws_len t)
      else if is_num curr then
        if starts_with (str "0x") t && (2 <? blen t)%nat then
          bind (slice_from 2 t) (fun r => bind (get_hex_number r) (fun x =>
          if (snd x =? 0)%nat then Ok (TNumValue, 1%nat) else Ok (fst x, (2 + snd x)%nat)))
        else get_decimal_number t
      else if is_alphabetic curr then
        if starts_with (str "x""") t then match hex_string_len (first_line t) with Some n => Ok (THexStringValue, n) | None => Panic end
        else if starts_with (str "b""") t then
          Ok (TByteStringValue, match byte_string_len (first_line t) with Some n => n | None => blen (first_line t) end)
        else bind (slice_to (get_name_len t) t) (fun n => Ok (get_name_token n, get_name_len t))
      else if is curr "'" then match quote_ident_len t with Some n => Ok (TLabel, n) | None => Ok (TBadCharacter, 1%nat) end
      else if is curr """" then Ok (TBadCharacter, 1%nat)
      else Ok (find_operator operators curr t)
  end.

(** aptos_token_kind_to_syntax_kind, lexer.rs:59-171; the rest is [unimplemented!] *)
Definition tok_kind (t : tok) : res kind :=
  match t with
  | TWhitespace => Ok WHITESPACE | TLineComment => Ok COMMENT | TBlockComment => Ok COMMENT | TBadCharacter => Ok BAD_CHARACTER
  | TNumValue => Ok INT_NUMBER | TNumTypedValue => Ok INT_NUMBER | TIdentifier => Ok IDENT | TLabel => Ok QUOTE_IDENT
  | TByteStringValue => Ok BYTE_STRING | THexStringValue => Ok HEX_STRING
  | TPlus => Ok PLUS | TMinus => Ok MINUS | TStar => Ok STAR | TSlash => Ok SLASH | TPercent => Ok PERCENT
  | TAtSign => Ok AT | TNumSign => Ok POUND | TUnderscore => Ok UNDERSCORE
  | TLParen => Ok L_PAREN | TRParen => Ok R_PAREN | TLBrace => Ok L_CURLY | TRBrace => Ok R_CURLY
  | TLBracket => Ok L_BRACK | TRBracket => Ok R_BRACK
  | TLess => Ok L_ANGLE | TGreater => Ok R_ANGLE | TEqualEqual => Ok EQ_EQ | TExclaimEqual => Ok NOT_EQ
  | TCaret => Ok CARET | TAmp => Ok AMP | TPipe => Ok PIPE
  | TPlusEqual => Ok PLUS_EQ | TSubEqual => Ok MINUS_EQ | TMulEqual => Ok STAR_EQ | TDivEqual => Ok SLASH_EQ | TModEqual => Ok PERCENT_EQ
  | TXorEqual => Ok CARET_EQ | TBitAndEqual => Ok AMP_EQ | TBitOrEqual => Ok PIPE_EQ
  | TEqualGreater => Ok FAT_ARROW | TEqualEqualGreater => Ok IMPLIES
  | TAs => Ok AS_KW | TUse => Ok USE_KW | TBreak => Ok BREAK_KW | TContinue => Ok CONTINUE_KW | TIf => Ok IF_KW | TElse => Ok ELSE_KW
  | TWhile => Ok WHILE_KW | TMut => Ok MUT_KW | TLoop => Ok LOOP_KW | TAbort => Ok ABORT_KW | TReturn => Ok RETURN_KW
  | TTrue => Ok TRUE_KW | TFalse => Ok FALSE_KW | TLet => Ok LET_KW | TStruct => Ok STRUCT_KW | TFun => Ok FUN_KW
  | TConst => Ok CONST_KW | TModule => Ok MODULE_KW | TScript => Ok SCRIPT_KW | TSpec => Ok SPEC_KW | TInvariant => Ok INVARIANT_KW
  | TAcquires => Ok ACQUIRES_KW | TFriend => Ok FRIEND_KW | TInline => Ok INLINE_KW | TPublic => Ok PUBLIC_KW | TNative => Ok NATIVE_KW
  | TMove => Ok MOVE_KW | TEqual => Ok EQ | TExclaim => Ok BANG
  | TPeriod => Ok DOT | TComma => Ok COMMA | TSemicolon => Ok SEMICOLON | TColon => Ok COLON | TColonColon => Ok COLON_COLON
  | TPeriodPeriod => Ok DOT_DOT
  | TEOF | TCopy | TPipePipe => Panic
  end.

(** tokenize, lexer.rs:25-49.  Lexer::advance (move_model.rs:222-228) slices the rest of the text,
    Lexer::content (l218-220) slices the token; here the rest of the text is carried along.  [None]: out of
    fuel. *)
Fixpoint tokenize_loop (fuel : nat) (t : chars) : option (res (list (raw_token * chars))) :=
  match fuel with
  | O => None
  | S f =>
      match find_token t with
      | Panic => Some Panic
      | Ok (TEOF, _) => Some (Ok [])
      | Ok (k, n) =>
          match tok_kind k, split_bytes n t with
          | Ok kd, Some (a, b) => option_map (fun r => bind r (fun l => Ok ((mkRaw kd n, a) :: l))) (tokenize_loop f b)
          | _, _ => Some Panic
          end
      end
  end.
(** the raw tokens with their texts; the code keeps the raw tokens only *)
Definition tokenize (t : chars) : option (res (list (raw_token * chars))) :=
  match t with [] => Some (Ok []) | _ => tokenize_loop (S (length t)) t end.
(** parse_single_token, l51-57 *)
Definition parse_single_token (t : chars) : option (res (option raw_token)) :=
  option_map (fun r => bind r (fun l => Ok (match l with [(x, _)] => Some x | _ => None end))) (tokenize t).
End Lexer.
