(** How a client reads semantic tokens (LSP 3.17, "Semantic Tokens"). *)
From Verif Require Import Base LspTextModel LspTextSpec SemTokensModel.
Local Open Scope N_scope.

(** absolute line, start character, length, type, modifiers *)
Definition abs_token := (N * N * N * N * N)%type.

Fixpoint decode (line char : N) (l : list token) : list abs_token :=
  match l with
  | [] => []
  | k :: l' =>
      let line' := line + delta_line k in
      let char' := if delta_line k =? 0 then char + delta_start k else delta_start k in
      (line', char', tok_len k, tok_type k, tok_mods k) :: decode line' char' l'
  end.

(** lexicographic order of positions *)
Definition pos_le (p q : N * N) : Prop := fst p < fst q \/ (fst p = fst q /\ snd p <= snd q).

Inductive sorted_from (p : N * N) : list (((N * N) * (N * N)) * N) -> Prop :=
| sf_nil : sorted_from p []
| sf_cons s e ty l : pos_le p s -> fst e = fst s -> snd s <= snd e -> sorted_from s l ->
    sorted_from p (((s, e), ty) :: l).

Definition absolute (x : ((N * N) * (N * N)) * N) : abs_token :=
  let '((s, e), ty) := x in (fst s, snd s, snd e - snd s, ty, 0).

(** Pieces of a highlighted segment [m] after the text [a]: one per line, without the newline; a last
    empty piece is dropped. [cur] is the part of the current line already read. *)
Fixpoint line_pieces (a cur m : ctext) : list (ctext * ctext) :=
  match m with
  | [] => match cur with [] => [] | _ => [(a, cur)] end
  | c :: m' => if c =? NL then (a, cur) :: line_pieces (a ++ cur ++ [NL]) [] m'
               else line_pieces a (cur ++ [c]) m'
  end.

(** The tokens a highlight must produce. *)
Definition shows (enc : encoding) (ty : N) (p : ctext * ctext) (k : abs_token) : Prop :=
  exists l c, cursor enc (fst p) l c /\ k = (l, c, units enc (snd p), ty, 0).

Inductive expected (enc : encoding) (t : ctext) : N -> list hl -> list abs_token -> Prop :=
| ex_nil pos : expected enc t pos [] []
| ex_skip pos r hs ks : expected enc t pos hs ks -> expected enc t pos ((r, None) :: hs) ks
| ex_cons pos a m b ty hs ks ks' :
    t = a ++ m ++ b -> pos <= blen a ->
    Forall2 (shows enc ty) (line_pieces a [] m) ks ->
    expected enc t (blen (a ++ m)) hs ks' ->
    expected enc t pos (((blen a, blen (a ++ m)), Some ty) :: hs) (ks ++ ks').

(** The flat integer array exchanged with the client and how it applies edits. *)
Definition flat (l : list token) : list N :=
  flat_map (fun k => [delta_line k; delta_start k; tok_len k; tok_type k; tok_mods k]) l.
Definition apply_tokens_edit (l : list N) (e : tokens_edit) : list N :=
  firstn (N.to_nat (ed_start e)) l ++ flat (ed_data e) ++ skipn (N.to_nat (ed_start e + ed_delete e)) l.
