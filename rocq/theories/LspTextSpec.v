(** Independent specification: what the protocol says positions and changes mean. *)
From Verif Require Import Base LspTextModel.
Local Open Scope N_scope.

(** Code units of a character / text in the negotiated encoding. *)
Definition units_char (enc : encoding) (c : char) : N :=
  match enc with
  | Utf8 => if c <? 128 then 1 else if c <? 2048 then 2 else if c <? 65536 then 3 else 4
  | Wide Utf16 => if c <? 65536 then 1 else 2
  | Wide Utf32 => 1
  end.
Fixpoint units (enc : encoding) (t : ctext) : N :=
  match t with [] => 0 | c :: t' => units_char enc c + units enc t' end.

(** [cursor enc a l c]: after the text [a] the cursor is on line [l] (number of newlines) and column
    [c] (code units since the last newline). *)
Inductive cursor (enc : encoding) : ctext -> N -> N -> Prop :=
| cursor_start : cursor enc [] 0 0
| cursor_newline a l c : cursor enc a l c -> cursor enc (a ++ [NL]) (l + 1) 0
| cursor_char a l c x : x <> NL -> cursor enc a l c -> cursor enc (a ++ [x]) l (c + units_char enc x).

(** A document obtained by one protocol-conforming change. *)
Inductive applied (enc : encoding) : ctext -> change -> ctext -> Prop :=
| applied_whole t new : applied enc t (Whole new) new
| applied_partial a m b new l1 c1 l2 c2 :
    cursor enc a l1 c1 -> cursor enc (a ++ m) l2 c2 ->
    applied enc (a ++ m ++ b) (Partial ((l1, c1), (l2, c2)) new) (a ++ new ++ b).

(** Documents on the way are shorter than 4 GiB (line-index asserts this when built). *)
Inductive applied_all (enc : encoding) : ctext -> list change -> ctext -> Prop :=
| aa_nil t : applied_all enc t [] t
| aa_cons t c t' cs t'' : blen t < u32_max -> applied enc t c t' -> applied_all enc t' cs t'' ->
    applied_all enc t (c :: cs) t''.

(** [is_line t l a x b]: the text is a ++ x ++ b where x is the content of line l. *)
Definition is_line (t : ctext) (l : N) (a x b : ctext) : Prop :=
  t = a ++ x ++ b /\ cursor Utf8 a l 0 /\ ~ In NL x /\ (b = [] \/ exists b', b = NL :: b').

(** The column points strictly inside a character of the line. *)
Definition inside_char (enc : encoding) (t : ctext) (l c : N) : Prop :=
  exists a x b p ch q, is_line t l a x b /\ x = p ++ ch :: q /\ units enc p < c < units enc p + units_char enc ch.

(** Sequential application with a line table rebuilt for every change: the behaviour the optimised
    loop must not differ from, also for positions the protocol does not allow. *)
Fixpoint sequential (enc : encoding) (t : ctext) (cs : list change) : res ctext :=
  match cs with
  | [] => Ok t
  | Whole new :: cs' => sequential enc new cs'
  | Partial r new :: cs' =>
      match text_range enc (new_index t) r with
      | None => sequential enc t cs'
      | Some (s, e) => match replace_range t s e new with
                       | Panic => Panic
                       | Ok t' => sequential enc t' cs'
                       end
      end
  end.

Definition has_whole (cs : list change) : Prop := exists t, In (Whole t) cs.
Definition lines_ordered (c : change) : Prop :=
  match c with Partial ((l1, _), (l2, _)) _ => l1 <= l2 | Whole _ => True end.
