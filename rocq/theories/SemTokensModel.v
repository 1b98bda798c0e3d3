(** Semantic tokens: crates/aptos-language-server/src/lsp/semantic_tokens.rs and
    to_proto.rs [semantic_tokens]. u32 subtraction is modelled as in a build with overflow checks: an
    underflow panics. *)
From Verif Require Import Base LspTextModel.
Local Open Scope N_scope.

(** lsp_types::SemanticToken; the modifiers are always 0 in this code base. *)
Record token := mkToken { delta_line : N; delta_start : N; tok_len : N; tok_type : N; tok_mods : N }.

(** semantic_tokens.rs:329-334 [SemanticTokensBuilder] *)
Record builder := mkBuilder { prev_line : N; prev_char : N; data : list token }.

(** semantic_tokens.rs:337-344 *)
Definition new_builder : builder := mkBuilder 0 0 [].

Definition sub32 (a b : N) : res N := if b <=? a then Ok (a - b) else Panic.

(** semantic_tokens.rs:347-375 [push] *)
Definition push (b : builder) (range : (N * N) * (N * N)) (token_index : N) : res builder :=
  let '((sl, sc), (_, ec)) := range in
  bind (match data b with
        | [] => Ok (sl, sc)
        | _ => bind (sub32 sl (prev_line b)) (fun pl =>
                 if pl =? 0 then bind (sub32 sc (prev_char b)) (fun pc => Ok (pl, pc))
                 else Ok (pl, sc))
        end) (fun '(pl, pc) =>
  bind (sub32 ec sc) (fun len =>
  Ok (mkBuilder sl sc (data b ++ [mkToken pl pc len token_index 0])))).

Fixpoint push_all (b : builder) (l : list (((N * N) * (N * N)) * N)) : res builder :=
  match l with
  | [] => Ok b
  | (r, ty) :: l' => bind (push b r ty) (fun b' => push_all b' l')
  end.

(** line_index::LineIndex::lines (external crate): the part of each line covered by the range. The
    slice [newlines[lo..hi]] panics when lo > hi. *)
Fixpoint count_lt (l : list N) (o : N) : nat :=
  match l with
  | [] => 0
  | x :: l' => if x <? o then S (count_lt l' o) else 0
  end.

Fixpoint pairs (prev : N) (l : list N) : list (N * N) :=
  match l with [] => [] | x :: l' => (prev, x) :: pairs x l' end.

Definition lines_of_range (i : line_index) (r : N * N) : res (list (N * N)) :=
  let lo := count_lt (newlines i) (fst r) in
  let hi := N.to_nat (count_le (newlines i) (snd r)) in
  if (lo <=? hi)%nat
  then Ok (filter (fun p => negb (fst p =? snd p))
             (pairs (fst r) (firstn (hi - lo) (skipn lo (newlines i)) ++ [snd r])))
  else Panic.

(** [&text[lo..hi]] *)
Definition slice (t : ctext) (lo hi : N) : res ctext :=
  if hi <? lo then Panic
  else match split_at t lo with
       | None => Panic
       | Some (_, r) => match split_at r (hi - lo) with
                        | None => Panic
                        | Some (m, _) => Ok m
                        end
       end.

Definition ends_with_nl (t : ctext) : bool :=
  match rev t with c :: _ => c =? NL | [] => false end.

(** to_proto.rs:50-54 [lsp_range] *)
Definition lsp_range (enc : encoding) (i : line_index) (r : N * N) : res ((N * N) * (N * N)) :=
  bind (lsp_position enc i (fst r)) (fun s =>
  bind (lsp_position enc i (snd r)) (fun e => Ok (s, e))).

(** to_proto.rs:314-320, the inner loop. *)
Fixpoint push_lines (enc : encoding) (t : ctext) (i : line_index) (ty : N) (ps : list (N * N)) (b : builder) : res builder :=
  match ps with
  | [] => Ok b
  | (lo, hi) :: ps' =>
      bind (slice t lo hi) (fun m =>
      let hi' := if ends_with_nl m then hi - 1 else hi in
      bind (lsp_range enc i (lo, hi')) (fun r =>
      bind (push b r ty) (fun b' => push_lines enc t i ty ps' b')))
  end.

(** A highlight: range and token type; [None] stands for [highlight.is_empty()]. The map from
    highlight tags to token types (to_proto.rs:326-380) is abstracted to that number. *)
Definition hl := ((N * N) * option N)%type.

(** to_proto.rs:296-324 [semantic_tokens] (without the result id) *)
Fixpoint semantic_tokens_loop (enc : encoding) (t : ctext) (i : line_index) (hs : list hl) (b : builder) : res builder :=
  match hs with
  | [] => Ok b
  | (_, None) :: hs' => semantic_tokens_loop enc t i hs' b
  | (r, Some ty) :: hs' =>
      bind (lines_of_range i r) (fun ps =>
      bind (push_lines enc t i ty ps b) (fun b' => semantic_tokens_loop enc t i hs' b'))
  end.

Definition semantic_tokens (enc : encoding) (t : ctext) (hs : list hl) : res (list token) :=
  bind (semantic_tokens_loop enc t (new_index t) hs new_builder) (fun b => Ok (data b)).

(** lsp_types::SemanticTokensEdit *)
Record tokens_edit := mkEdit { ed_start : N; ed_delete : N; ed_data : list token }.

Definition token_eqb (a b : token) : bool :=
  (delta_line a =? delta_line b) && (delta_start a =? delta_start b) && (tok_len a =? tok_len b) &&
  (tok_type a =? tok_type b) && (tok_mods a =? tok_mods b).

(** [zip(..).take_while(|(n, p)| n == p).count()] *)
Fixpoint common_prefix (a b : list token) : nat :=
  match a, b with
  | x :: a', y :: b' => if token_eqb x y then S (common_prefix a' b') else 0
  | _, _ => 0
  end.

(** semantic_tokens.rs:383-411 [diff_tokens]; the casts to u32 are taken not to truncate. [split_at]
    and the subtraction cannot go out of range because a count of a zip is bounded by both lengths. *)
Definition diff_tokens (old new : list token) : list tokens_edit :=
  let offset := common_prefix new old in
  let old1 := skipn offset old in
  let new1 := skipn offset new in
  let from_end := common_prefix (rev new1) (rev old1) in
  let old2 := firstn (length old1 - from_end) old1 in
  let new2 := firstn (length new1 - from_end) new1 in
  match old2, new2 with
  | [], [] => []
  | _, _ => [mkEdit (5 * N.of_nat offset) (5 * N.of_nat (length old2)) new2]
  end.
