(** What the tree must contain (C17), stated on the leaves and on the nodes separately. *)
From Verif Require Import Base SyntaxKind ParserModel TreeSinkModel.

(** The text of a tree and its leaves. *)
Fixpoint leaves (t : tree) : list (kind * text) := match t with TNode _ ch => flat_map leaves ch | TTok k x => [(k, x)] end.
Definition tree_text (t : tree) : text := concat (map snd (leaves t)).

(** The tree as opening, closing and leaf marks. *)
Fixpoint marks (t : tree) : list bop := match t with TNode k ch => BStart k :: flat_map marks ch ++ [BFinish] | TTok k x => [BTok k x] end.
(** without whitespace and comments *)
Definition keep (t : tree) : bool := match t with TTok k _ => negb (is_trivia k) | _ => true end.
Fixpoint strip_trivia (t : tree) : tree := match t with TNode k ch => TNode k (filter keep (map strip_trivia ch)) | x => x end.

(** A lexed source: kind and text of every raw token; the source is the concatenation. *)
Definition raw_of (ts : list (kind * text)) : list raw_token := map (fun t => mkRaw (fst t) (length (snd t))) ts.
Definition source (ts : list (kind * text)) : text := concat (map snd ts).
(** comments look like comments, and no token starts in the middle of a character *)
Definition lexed (ts : list (kind * text)) : Prop :=
  Forall (fun t => starts_at_char (snd t) /\ (fst t = COMMENT -> exists d, comment_doc (snd t) = Ok d)) ts.

(** The leaves the tree must have.  [toks]: the tokens the grammar consumed, with the number of raw
    tokens glued together; [lv]: all leaves; [tt]: those of the consumed tokens only.  Whitespace and
    comments stand for themselves; glued raw tokens have nothing between them. *)
Inductive covers : list (kind * text) -> list (kind * nat) -> list (kind * text) -> list (kind * text) -> Prop :=
| cov_nil : covers [] [] [] []
| cov_trivia : forall k t ts toks lv tt, is_trivia k = true -> covers ts toks lv tt -> covers ((k, t) :: ts) toks ((k, t) :: lv) tt
| cov_token : forall seg k ts toks lv tt, seg <> [] -> Forall (fun x => is_trivia (fst x) = false) seg -> covers ts toks lv tt ->
    covers (seg ++ ts) ((k, length seg) :: toks) ((k, source seg) :: lv) ((k, source seg) :: tt).

(** The marks the calls stand for, token texts taken from [tt]. *)
Fixpoint marks_of (l : list call) (tt : list (kind * text)) : list bop :=
  match l with
  | [] => []
  | CStart k :: r => BStart k :: marks_of r tt
  | CFinish :: r => BFinish :: marks_of r tt
  | CError _ :: r => marks_of r tt
  | CToken _ _ :: r => match tt with (k, x) :: tt' => BTok k x :: marks_of r tt' | [] => [] end
  end.
