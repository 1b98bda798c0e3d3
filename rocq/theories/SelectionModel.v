(** Model of "expand selection": crates/ide/src/extend_selection.rs and the loop of handle_selection_range,
    crates/aptos-language-server/src/handlers/request.rs:457-498.

    An element of the tree is named by its path from the root (as in EditorModel.v); offsets are bytes.
    [root.token_at_offset] and [root.covering_element] are rowan's: the former gives the
    non-empty tokens that touch the offset, the latter the deepest element containing a non-empty range; both
    panic outside of the file.  Unicode's alphanumeric characters are a parameter. *)
From Verif Require Import Base SyntaxKind TextEditModel TreeSinkModel TreeDiffModel EditorModel.
Close Scope N_scope.
Open Scope nat_scope.

Definition same_range (a b : range) : bool := (r_start a =? r_start b) && (r_end a =? r_end b).
Definition kind_at (t : tree) (p : place_path) : option kind := option_map tree_kind (element_at t p).
Definition is_kind_at (t : tree) (p : place_path) (k : kind) : bool := match kind_at t p with Some x => kind_eqb x k | None => false end.
Definition children_of (t : tree) (p : place_path) : list tree := match element_at t p with Some (TNode _ ch) => ch | _ => [] end.
Definition has_newline (x : text) : bool := existsb (N.eqb 10) x.
(** "\n\n" occurs *)
Fixpoint has_blank_line (x : text) : bool :=
  match x with a :: ((b :: _) as r) => ((a =? 10) && (b =? 10))%N || has_blank_line r | _ => false end.

(** the tokens of a tree, in order *)
Fixpoint tokens_from (p : place_path) (t : tree) : list place_path :=
  match t with
  | TTok _ _ => [p]
  | TNode _ ch => (fix go (i : nat) (ch : list tree) : list place_path := match ch with [] => [] | c :: r => tokens_from (p ++ [i]) c ++ go (S i) r end) 0 ch
  end.
(** token_at_offset *)
Definition touches (t : tree) (o : nat) (p : place_path) : bool :=
  let r := range_at t p in (r_start r <? r_end r) && (r_start r <=? o) && (o <=? r_end r).
Definition token_at_offset (t : tree) (o : nat) : list place_path := filter (touches t o) (tokens_from [] t).
(** covering_element *)
Fixpoint covering (off : nat) (t : tree) (r : range) : place_path :=
  match t with
  | TTok _ _ => []
  | TNode _ ch =>
      (fix go (i off : nat) (ch : list tree) : place_path :=
         match ch with
         | [] => []
         | c :: rest => if (off <=? r_start r) && (r_end r <=? off + length (elem_text c)) then i :: covering off c r
                        else go (S i) (off + length (elem_text c)) rest
         end) 0 off ch
  end.

(** next_sibling_or_token *)
Definition next_sibling (t : tree) (p : place_path) : option place_path :=
  match rev p with
  | [] => None
  | i :: r => let q := rev r ++ [S i] in match element_at t q with Some _ => Some q | None => None end
  end.

(** ** Words in comments and strings, l113-145 *)
Section word.
Variable word_char : text -> bool.     (* char::is_alphanumeric or '_', of the bytes of one character *)
(** the characters of a text *)
Fixpoint chars (x : text) : list text :=
  match x with
  | [] => []
  | b :: r =>
      match r with
      | c :: _ => if is_cont c then match chars r with y :: ys => (b :: y) :: ys | [] => [[b]] end else [b] :: chars r
      | [] => [[b]]
      end
  end.
(** the end of the last character that belongs to no word: [ceil_char_boundary(before.rfind(..) + 1)] *)
Fixpoint after_last_gap (pos : nat) (cs : list text) : option nat :=
  match cs with
  | [] => None
  | c :: r => match after_last_gap (pos + length c) r with
              | Some k => Some k
              | None => if word_char c then None else Some (pos + length c)
              end
  end.
(** [after.find(..).unwrap_or(after.len())] *)
Fixpoint first_gap (pos : nat) (cs : list text) : nat :=
  match cs with [] => pos | c :: r => if word_char c then first_gap (pos + length c) r else pos end.
(** extend_single_word_in_comment_or_string; split_at panics inside a character *)
Definition extend_word (t : tree) (p : place_path) (o : nat) : res (option range) :=
  let x := text_at t p in
  let k := o - offset_at t p in
  if negb (is_char_boundary x k) then Panic
  else match after_last_gap 0 (chars (firstn k x)) with
       | None => Ok None
       | Some from =>
           let to_ := k + first_gap 0 (chars (skipn k x)) in
           if from =? to_ then Ok None else Ok (Some (mkRange (offset_at t p + from) (offset_at t p + to_)))
       end.

(** ** Whitespace, extend_ws, l147-168 *)
Fixpoint last_newline (pos : nat) (x : text) : option nat :=
  match x with
  | [] => None
  | b :: r => match last_newline (S pos) r with Some k => Some k | None => if (b =? 10)%N then Some pos else None end
  end.
Definition extend_ws (t : tree) (p : place_path) (o : nat) : res range :=
  let x := text_at t p in
  let s := offset_at t p in
  if negb (is_char_boundary x (o - s)) then Panic
  else if has_newline x && negb (has_newline (skipn (o - s) x)) then
    match next_sibling t p with
    | Some q =>
        let start := match last_newline 0 (firstn (o - s) x) with Some i => s + (i + 1) | None => offset_at t q end in
        let e := r_end (range_at t q) in
        Ok (mkRange start (match nth_error (elem_text t) e with Some b => if (b =? 10)%N then e + 1 else e | None => e end))
    | None => Ok (range_at t p)
    end
  else Ok (range_at t p).

(** pick_best, l170-179 *)
Definition priority (k : option kind) : nat := match k with Some WHITESPACE => 0 | Some IDENT => 2 | _ => 1 end.
Definition pick_best (t : tree) (l r : place_path) : place_path := if priority (kind_at t l) <? priority (kind_at t r) then r else l.

(** ** List items, extend_list_item, l181-232 *)
Definition single_line_ws (e : tree) : bool := match e with TTok WHITESPACE x => negb (has_newline x) | _ => false end.
Definition is_comma (e : tree) : bool := match e with TTok COMMA _ => true | _ => false end.
(** nearby_delimiter on the siblings that follow: how many elements away *)
Fixpoint nearby_comma (d : nat) (l : list tree) : option nat :=
  match l with
  | [] => None
  | e :: r => if single_line_ws e then nearby_comma (S d) r else if is_comma e then Some d else None
  end.
Definition extend_list_item (t : tree) (q : place_path) (i : nat) : option range :=
  let ch := children_of t q in
  match nearby_comma 1 (skipn (S i) ch) with
  | Some d =>
      let j := i + d in
      let final := match nth_error ch (S j) with Some e => if single_line_ws e then S j else j | None => j end in
      Some (mkRange (r_start (range_at t (q ++ [i]))) (r_end (range_at t (q ++ [final]))))
  | None =>
      match nearby_comma 1 (rev (firstn i ch)) with
      | Some d => Some (mkRange (r_start (range_at t (q ++ [i - d]))) (r_end (range_at t (q ++ [i]))))
      | None => None
      end
  end.
Definition list_kind (k : kind) : bool :=
  match k with
  | STRUCT_PAT_FIELD_LIST | MATCH_ARM_LIST | NAMED_FIELD_LIST | TUPLE_FIELD_LIST | VARIANT_LIST | TYPE_PARAM_LIST | TYPE_ARG_LIST
  | PARAM_LIST | VALUE_ARG_LIST | VECTOR_LIT_EXPR | TUPLE_EXPR | TUPLE_TYPE | TUPLE_PAT => true
  | _ => false
  end.

(** ** Comments, extend_comments and adj_comments, l234-257: how far the group reaches over the siblings *)
Fixpoint adj_comments (d best : nat) (l : list tree) : nat :=
  match l with
  | TTok COMMENT _ :: r => adj_comments (S d) d r
  | TTok WHITESPACE x :: r => if has_blank_line x then best else adj_comments (S d) best r
  | _ => best
  end.
Definition extend_comments (t : tree) (q : place_path) (i : nat) : option range :=
  let ch := children_of t q in
  let next := adj_comments 1 0 (skipn (S i) ch) in
  let prev := adj_comments 1 0 (rev (firstn i ch)) in
  if (prev =? 0) && (next =? 0) then None
  else Some (mkRange (r_start (range_at t (q ++ [i - prev]))) (r_end (range_at t (q ++ [i + next])))).

(** shallowest_node, l105-111, on the reversed path *)
Fixpoint climb (t : tree) (r : range) (rp : list nat) : place_path :=
  match rp with
  | [] => []
  | i :: rp' => if same_range (range_at t (rev rp')) r then climb t r rp' else rev rp
  end.
Definition shallowest (t : tree) (p : place_path) : place_path := climb t (range_at t p) (rev p).

(** try_extend_selection from the covering node on, l89-102 *)
Definition extend_node (t : tree) (r : range) (p : place_path) : option range :=
  if negb (same_range (range_at t p) r) then Some (range_at t p)
  else match rev (shallowest t p) with
       | [] => None
       | i :: rq =>
           let q := rev rq in
           let from_list := if match kind_at t q with Some k => list_kind k | None => false end then extend_list_item t q i else None in
           match from_list with Some x => Some x | None => Some (range_at t q) end
       end.
(** try_extend_selection, l35-103 *)
Definition string_kind (k : option kind) : bool := match k with Some COMMENT | Some BYTE_STRING => true | _ => false end.
Definition try_extend (t : tree) (r : range) : res (option range) :=
  if length (elem_text t) <? r_end r then Panic
  else if r_is_empty r then
    let o := r_start r in
    let leaves := token_at_offset t o in
    if forallb (fun p => is_kind_at t p WHITESPACE) leaves then
      match leaves with
      | [] => Ok None
      | p :: _ => bind (extend_ws t p o) (fun x => Ok (Some x))
      end
    else match leaves with
         | [] => Ok None
         | [l] => if string_kind (kind_at t l)
                  then bind (extend_word t l o) (fun w => Ok (Some match w with Some x => x | None => range_at t l end))
                  else Ok (Some (range_at t l))
         | l :: r :: _ => Ok (Some (range_at t (pick_best t l r)))
         end
  else
    let p := covering 0 t r in
    match element_at t p with
    | Some (TTok k _) =>
        if negb (same_range (range_at t p) r) then Ok (Some (range_at t p))
        else match rev p with
             | [] => Ok None
             | i :: rq =>
                 match (if kind_eqb k COMMENT then extend_comments t (rev rq) i else None) with
                 | Some x => Ok (Some x)
                 | None => Ok (extend_node t r (rev rq))
                 end
             end
    | _ => Ok (extend_node t r p)
    end.
(** extend_selection, l29-33 *)
Definition extend_selection (t : tree) (r : range) : res range :=
  bind (try_extend t r) (fun x => Ok match x with Some y => y | None => r end).

(** the loop of handle_selection_range: the ranges sent to the client, innermost first; [None]: it is still
    running when the fuel is used up *)
Fixpoint selection_ranges (fuel : nat) (t : tree) (r : range) : res (option (list range)) :=
  match fuel with
  | O => Ok None
  | S fuel' =>
      bind (extend_selection t r) (fun next =>
        if same_range next r then Ok (Some [r])
        else bind (selection_ranges fuel' t next) (fun rest => Ok (option_map (cons r) rest)))
  end.
End word.
