(** Model of find usages: where a name is looked for and which occurrences are reported.
    crates/ide-db/src/search.rs.

    What a name refers to (NameRefClass::classify, NameClass::classify, defs.rs) is a parameter: [refers p] says
    that the NAME or NAME_REF at [p] is classified as a use of the item. *)
From Verif Require Import Base SyntaxKind TextEditModel TreeSinkModel TreeDiffModel EditorModel SelectionModel SignatureModel.
Close Scope N_scope.
Open Scope nat_scope.

(** ** The text search *)
(** memchr::memmem::Finder::find_iter: the occurrences from left to right, not overlapping.  [skip] bytes belong to
    the occurrence found last. *)
Fixpoint starts_with (n s : text) : bool :=
  match n, s with
  | [], _ => true
  | x :: n', y :: s' => N.eqb x y && starts_with n' s'
  | _, [] => false
  end.
Fixpoint find_iter (n s : text) (i skip : nat) : list nat :=
  match s with
  | [] => []
  | _ :: s' =>
      match skip with
      | S k => find_iter n s' (S i) k
      | O => if starts_with n s then i :: find_iter n s' (S i) (length n - 1) else find_iter n s' (S i) 0
      end
  end.
(** the word boundaries, search.rs:388-401.  The last char before (the first char behind) is one of these ASCII
    characters exactly when the byte is. *)
Definition letter_ (b : byte) : bool := ((65 <=? b) && (b <=? 90) || (97 <=? b) && (b <=? 122) || (b =? 95))%N.
Definition digit (b : byte) : bool := ((48 <=? b) && (b <=? 57))%N.
Definition letter_before (s : text) (i : nat) : bool := match i with O => false | S j => match nth_error s j with Some b => letter_ b | None => false end end.
Definition word_after (s : text) (i : nat) : bool := match nth_error s i with Some b => letter_ b || digit b | None => false end.
(** TextRange::contains_inclusive *)
Definition contains_inclusive (r : range) (o : nat) : bool := (r_start r <=? o) && (o <=? r_end r).
(** find_matches, search.rs:375-405; slicing the text inside a character panics *)
Fixpoint find_matches (s n : text) (ranges : list range) (l : list nat) : res (list nat) :=
  match l with
  | [] => Ok []
  | i :: r =>
      bind (find_matches s n ranges r) (fun m =>
      if negb (existsb (fun it => contains_inclusive it i) ranges) then Ok m
      else if negb (is_char_boundary s i && is_char_boundary s (i + length n)) then Panic
      else if letter_before s i || word_after s (i + length n) then Ok m else Ok (i :: m))
  end.
(** find_nodes, search.rs:407-416: the parent of the token at the offset that is spelled like the name *)
Definition spelled (t : tree) (n : text) (p : place_path) : bool := if list_eq_dec N.eq_dec (text_at t p) n then true else false.
Definition find_nodes (t : tree) (n : text) (o : nat) : list place_path :=
  match find (spelled t n) (token_at_offset t o) with
  | Some tok => match rev tok with [] => [] | _ :: r => [rev r] end
  | None => []
  end.
(** ast::NameLike::cast *)
Definition is_name_like (t : tree) (p : place_path) : bool :=
  match kind_at t p with Some NAME => true | Some NAME_REF => true | _ => false end.
(** search, search.rs:418-455, in one file, with a sink that never stops (fetch_all, l366-373) *)
Definition usages (refers : place_path -> bool) (s : text) (t : tree) (n : text) (ranges : list range) : res (list place_path) :=
  bind (find_matches s n ranges (find_iter n s 0 0)) (fun ms =>
  Ok (filter (fun p => is_name_like t p && refers p) (flat_map (find_nodes t n) ms))).

(** ** The search scope of a binding, ident_pat_search_scope, search.rs:125-163 *)
(** ancestor_strict::<IdentPatOwner>; the IdentPatOwner kinds are in syntax/src/ast/generated/nodes.rs:2474-2484 *)
Definition is_owner (k : kind) : bool :=
  match k with FOR_CONDITION | ITEM_SPEC_PARAM | LAMBDA_PARAM | LET_STMT | MATCH_ARM | PARAM | QUANT_BINDING | SCHEMA_FIELD => true | _ => false end.
Definition kind_is (t : tree) (f : kind -> bool) (p : place_path) : bool := match kind_at t p with Some k => f k | None => false end.
Definition ident_owner (t : tree) (p : place_path) : option place_path := find (kind_is t is_owner) (parents p).
Definition parent_path (p : place_path) : option place_path := match rev p with [] => None | _ :: r => Some (rev r) end.
Definition obind {A B} (o : option A) (f : A -> option B) : option B := match o with Some a => f a | None => None end.
Definition parent_of (t : tree) (f : kind -> bool) (p : place_path) : option place_path :=
  obind (parent_path p) (fun q => if kind_is t f q then Some q else None).
Definition first_child (t : tree) (f : kind -> bool) (q : place_path) : option place_path :=
  option_map (fun i => q ++ [i]) (find_index (fun e => match e with TNode k _ => f k | TTok _ _ => false end) 0 (children_of t q)).
Definition is_any_fun (k : kind) : bool := match k with FUN | LEMMA | SPEC_FUN | SPEC_INLINE_FUN => true | _ => false end.
Definition is_kind (k k' : kind) : bool := kind_eqb k k'.
(** BlockOrInlineExpr *)
Definition is_body (k : kind) : bool := match k with BLOCK_EXPR | INLINE_EXPR => true | _ => false end.
Inductive scope := Everywhere                      (* the whole file (and others) *)
  | Ranges (rs : list range).
(** [specs]: the ranges of the item specs of a function in this file (item_specs::get_item_specs_for_fun).  Where
    the function gives up with `?` the scope is all files (item_search_scope, l101-123). *)
Definition ident_pat_scope (t : tree) (specs : place_path -> list range) (p : place_path) : scope :=
  match find (kind_is t (is_kind MODULE)) (parents p), ident_owner t p with
  | None, _ => Everywhere
  | _, None => Everywhere
  | Some _, Some o =>
      match kind_at t o with
      | Some PARAM =>
          match obind (parent_of t (is_kind PARAM_LIST) o) (parent_of t is_any_fun) with
          | None => Everywhere
          | Some f => Ranges ((match first_child t (is_kind BLOCK_EXPR) f with Some b => [range_at t b] | None => [] end) ++ specs f)
          end
      | Some LAMBDA_PARAM =>
          match obind (parent_path o) (parent_of t (is_kind LAMBDA_EXPR)) with
          | None => Everywhere            (* a panic in the code; the parser makes no such tree *)
          | Some l => Ranges [range_at t l]
          end
      | Some LET_STMT =>
          match find (kind_is t (is_kind FUN)) (parents p) with Some f => Ranges [range_at t f] | None => Everywhere end
      | Some FOR_CONDITION =>
          match obind (parent_of t (is_kind FOR_EXPR) o) (first_child t is_body) with Some b => Ranges [range_at t b] | None => Everywhere end
      | Some MATCH_ARM => Ranges [range_at t o]
      | _ => Everywhere
      end
  end.
Definition scope_ranges (s : text) (c : scope) : list range := match c with Everywhere => [mkRange 0 (length s)] | Ranges rs => rs end.

(** ** Narrowing a scope *)
(** TextRange::intersect *)
Definition intersect (a b : range) : option range :=
  let s := Nat.max (r_start a) (r_start b) in let e := Nat.min (r_end a) (r_end b) in
  if e <? s then None else Some (mkRange s e).
(** the inner loop, search.rs:317-321 *)
Fixpoint last_intersect (left : range) (rights : list range) (acc : option range) : option range :=
  match rights with
  | [] => acc
  | r :: rs => last_intersect left rs (match intersect r left with Some x => Some x | None => acc end)
  end.
(** intersect_ranges, search.rs:304-328; None: the whole file *)
Definition intersect_ranges (l r : option (list range)) : option (list range) :=
  match l, r with
  | None, None => None
  | Some a, None => Some a
  | None, Some b => Some b
  | Some a, Some b => Some (flat_map (fun x => match last_intersect x b None with Some y => [y] | None => [] end) a)
  end.
