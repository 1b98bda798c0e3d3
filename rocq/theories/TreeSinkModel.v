(** Model of the tree sink, which turns replayed parser events into the syntax tree and puts whitespace
    and comments back.

    Source: crates/syntax/src/parse/text_tree_sink.rs, crates/syntax/src/syntax_node.rs:61-93,
    crates/syntax/src/ast/token_ext.rs:83-157 (CommentKind::from_text).  rowan's GreenNodeBuilder is
    modelled from its documented behaviour (the crate is not part of the repository).

    Simplified: the calls on the builder are collected and executed at the end (nothing is read back from
    the builder, so only the moment of a builder panic differs); the leading trivia is sliced out of the
    text all at once instead of lazily. *)
From Coq Require Import String.
From Verif Require Import Base SyntaxKind ParserModel AddressModel.
Local Open Scope string_scope.
Local Open Scope list_scope. Local Open Scope nat_scope.

(** * Green trees and rowan's builder *)
Inductive tree := TNode (k : kind) (children : list tree) | TTok (k : kind) (t : text).
Inductive bop := BStart (k : kind) | BFinish | BTok (k : kind) (t : text).

(** GreenNodeBuilder: open nodes with the index of their first child, and all finished elements *)
Record builder := mkB { b_parents : list (kind * nat); b_children : list tree }.
Definition b_step (b : builder) (o : bop) : res builder :=
  match o with
  | BStart k => Ok (mkB ((k, length (b_children b)) :: b_parents b) (b_children b))
  | BTok k t => Ok (mkB (b_parents b) (b_children b ++ [TTok k t]))
  | BFinish =>
      match b_parents b with
      | [] => Panic                                                     (* parents.pop().unwrap() *)
      | (k, first) :: ps => Ok (mkB ps (firstn first (b_children b) ++ [TNode k (skipn first (b_children b))]))
      end
  end.
Fixpoint b_run (b : builder) (l : list bop) : res builder := match l with [] => Ok b | o :: r => bind (b_step b o) (fun b' => b_run b' r) end.
(** GreenNodeBuilder::finish: exactly one element, and it is a node *)
Definition b_finish (b : builder) : res tree := match b_children b with [TNode k ch] => Ok (TNode k ch) | _ => Panic end.

(** * Comments, token_ext.rs:83-157 *)
Inductive placement := Inner | Outer.
Fixpoint starts_with (p t : text) : bool :=
  match p, t with [], _ => true | _, [] => false | a :: p', b :: t' => (a =? b)%N && starts_with p' t' end.
Definition by_prefix : list (text * option placement) :=
  [(str "/**/", None); (str "/***", None); (str "////", None); (str "///", Some Outer); (str "//!", Some Inner);
   (str "/**", Some Outer); (str "/*!", Some Inner); (str "//", None); (str "/*", None)].
Definition comment_doc (t : text) : res (option placement) :=
  match find (fun e => starts_with (fst e) t) by_prefix with Some (_, d) => Ok d | None => Panic end.
(** str::contains *)
Fixpoint contains (p t : text) : bool := starts_with p t || match t with [] => false | _ :: t' => contains p t' end.

(** * n_attached_trivias, text_tree_sink.rs:155-193 *)
Definition attaches (k : kind) : bool :=
  match k with
  | CONST | ENUM | FUN | SPEC_FUN | SPEC_INLINE_FUN | MODULE | NAMED_FIELD | TUPLE_FIELD | STRUCT | USE_STMT | VARIANT => true
  | _ => false
  end.
Definition blank_line : text := [10; 10]%N.
Fixpoint attach_loop (i res0 : nat) (l : list (kind * text)) : res nat :=
  match l with
  | [] => Ok res0
  | (k, t) :: r =>
      if kind_eqb k WHITESPACE && contains blank_line t then
        match r with
        | (k2, t2) :: _ =>
            if kind_eqb k2 COMMENT
            then bind (comment_doc t2) (fun d => match d with Some Outer => attach_loop (S i) res0 r | _ => Ok res0 end)
            else Ok res0
        | [] => Ok res0
        end
      else if kind_eqb k COMMENT then bind (comment_doc t) (fun d => match d with Some Inner => Ok res0 | _ => attach_loop (S i) (S i) r end)
      else attach_loop (S i) res0 r
  end.
Definition n_attached (k : kind) (trivias : list (kind * text)) : res nat := if attaches k then attach_loop 0 0 trivias else Ok 0.

(** * TextTreeSink, l25-153 *)
Inductive sink_state := PendingStart | Normal | PendingFinish.
Record sink := mkSink {
  sk_text_pos : nat; sk_tok_pos : nat; sk_state : sink_state;
  sk_out : list bop;                 (* calls made on the tree builder *)
  sk_errors : list (text * nat)
}.
Definition emit (o : bop) (s : sink) : sink := mkSink (sk_text_pos s) (sk_tok_pos s) (sk_state s) (sk_out s ++ [o]) (sk_errors s).
Definition set_st (st : sink_state) (s : sink) : sink := mkSink (sk_text_pos s) (sk_tok_pos s) st (sk_out s) (sk_errors s).
(** &text[a..b]: panics unless a <= b <= len and both are character boundaries *)
Definition slice (tx : text) (a b : nat) : res text :=
  if (a <=? b) && (b <=? length tx) && is_char_boundary tx a && is_char_boundary tx b then Ok (firstn (b - a) (skipn a tx)) else Panic.
Definition sum_len (l : list raw_token) : nat := fold_right (fun t a => rt_len t + a) 0 l.

Section sink.
Variable tx : text.
Variable tokens : list raw_token.

(** do_token, l146-152 *)
Definition do_token (k : kind) (len n : nat) (s : sink) : res sink :=
  bind (slice tx (sk_text_pos s) (sk_text_pos s + len)) (fun t =>
  Ok (mkSink (sk_text_pos s + len) (sk_tok_pos s + n) (sk_state s) (sk_out s ++ [BTok k t]) (sk_errors s))).
(** eat_trivias, l129-136; [l] is what is left of the tokens *)
Fixpoint eat_trivias_list (l : list raw_token) (s : sink) : res sink :=
  match l with
  | t :: r => if is_trivia (rt_kind t) then bind (do_token (rt_kind t) (rt_len t) 1 s) (eat_trivias_list r) else Ok s
  | [] => Ok s
  end.
Definition eat_trivias (s : sink) : res sink := eat_trivias_list (skipn (sk_tok_pos s) tokens) s.
(** eat_n_trivias, l138-144 *)
Fixpoint eat_n_trivias (n : nat) (s : sink) : res sink :=
  match n with
  | O => Ok s
  | S n' =>
      match nth_error tokens (sk_tok_pos s) with
      | Some t => if is_trivia (rt_kind t) then bind (do_token (rt_kind t) (rt_len t) 1 s) (eat_n_trivias n') else Panic
      | None => Panic
      end
  end.
(** token, l41-54 *)
Definition sink_token (k : kind) (n : nat) (s : sink) : res sink :=
  bind (match sk_state s with PendingStart => Panic | PendingFinish => Ok (emit BFinish (set_st Normal s)) | Normal => Ok s end) (fun s1 =>
  bind (eat_trivias s1) (fun s2 =>
  if sk_tok_pos s2 + n <=? length tokens
  then do_token k (sum_len (firstn n (skipn (sk_tok_pos s2) tokens))) n s2 else Panic)).
(** the leading trivia in reverse order with texts, l69-83: [e] is the end of the next one *)
Fixpoint rev_texts (e : nat) (l : list raw_token) : res (list (kind * text)) :=
  match l with
  | [] => Ok []
  | t :: r =>
      if rt_len t <=? e then
        bind (slice tx (e - rt_len t) e) (fun x => bind (rev_texts (e - rt_len t) r) (fun rest => Ok ((rt_kind t, x) :: rest)))
      else Panic
  end.
Fixpoint take_trivia (l : list raw_token) : list raw_token :=
  match l with t :: r => if is_trivia (rt_kind t) then t :: take_trivia r else [] | [] => [] end.
(** start_node, l57-88 *)
Definition sink_start (k : kind) (s : sink) : res sink :=
  match sk_state s with
  | PendingStart => Ok (emit (BStart k) (set_st Normal s))
  | _ =>
      let s1 := match sk_state s with PendingFinish => emit BFinish (set_st Normal s) | _ => s end in
      let leading := take_trivia (skipn (sk_tok_pos s1) tokens) in
      bind (rev_texts (sk_text_pos s1 + sum_len leading) (rev leading)) (fun tv =>
      bind (n_attached k tv) (fun na =>
      if na <=? length leading then
        bind (eat_n_trivias (length leading - na) s1) (fun s2 =>
        eat_n_trivias na (emit (BStart k) s2))
      else Panic))
  end.
(** finish_node, l92-98 *)
Definition sink_finish_node (s : sink) : res sink :=
  match sk_state s with
  | PendingStart => Panic
  | PendingFinish => Ok (set_st PendingFinish (emit BFinish s))
  | Normal => Ok (set_st PendingFinish s)
  end.
(** error, l100-102 *)
Definition sink_error (m : text) (s : sink) : sink :=
  mkSink (sk_text_pos s) (sk_tok_pos s) (sk_state s) (sk_out s) (sk_errors s ++ [(m, sk_text_pos s)]).
Definition sink_call (c : call) (s : sink) : res sink :=
  match c with
  | CStart k => sink_start k s
  | CFinish => sink_finish_node s
  | CToken k n => sink_token k n s
  | CError m => Ok (sink_error m s)
  end.
Fixpoint sink_calls (l : list call) (s : sink) : res sink := match l with [] => Ok s | c :: r => bind (sink_call c s) (sink_calls r) end.
(** new, finish: l106-127 *)
Definition sink_new : sink := mkSink 0 0 PendingStart [] [].
Definition sink_finish (s : sink) : res (tree * list (text * nat)) :=
  match sk_state s with
  | PendingFinish =>
      bind (eat_trivias (set_st Normal s)) (fun s1 =>
      bind (b_run (mkB [] []) (sk_out (emit BFinish s1))) (fun b => bind (b_finish b) (fun t => Ok (t, sk_errors s1))))
  | _ => Panic
  end.
(** parse_text, parse.rs:39-56, after the grammar has run: replay and build *)
Definition build_tree (calls : list call) : res (tree * list (text * nat)) := bind (sink_calls calls sink_new) sink_finish.
End sink.
