(** Model of parameter hints: which argument the cursor is in.  crates/ide-db/src/active_parameter.rs and
    crates/ide/src/signature_help.rs (signature help), crates/syntax/src/algo.rs:64-68, 87-95
    (ancestors_at_offset, skip_trivia_token).

    What is called, and the names and types shown, come from name resolution and are parameters here. *)
From Verif Require Import Base SyntaxKind TextEditModel TreeSinkModel TreeDiffModel EditorModel SelectionModel.
Close Scope N_scope.
Open Scope nat_scope.

Definition path_eqb (p q : place_path) : bool := if list_eq_dec Nat.eq_dec p q then true else false.

(** support::token and support::child: the first direct child of a kind *)
Fixpoint find_index {A} (f : A -> bool) (i : nat) (l : list A) : option nat :=
  match l with [] => None | x :: r => if f x then Some i else find_index f (S i) r end.
Definition is_token_of (k : kind) (e : tree) : bool := match e with TTok k' _ => kind_eqb k' k | TNode _ _ => false end.
Definition is_node_of (k : kind) (e : tree) : bool := match e with TNode k' _ => kind_eqb k' k | TTok _ _ => false end.
Definition child_token (t : tree) (q : place_path) (k : kind) : option place_path :=
  option_map (fun i => q ++ [i]) (find_index (is_token_of k) 0 (children_of t q)).
Definition child_node (t : tree) (q : place_path) (k : kind) : option place_path :=
  option_map (fun i => q ++ [i]) (find_index (is_node_of k) 0 (children_of t q)).

(** active_param, active_parameter.rs:148-155: the commas of the list up to the first one that starts after the
    offset *)
Fixpoint take_while {A} (f : A -> bool) (l : list A) : list A :=
  match l with [] => [] | x :: r => if f x then x :: take_while f r else [] end.
Definition comma_children (t : tree) (q : place_path) : list place_path :=
  map (fun i => q ++ [i]) (filter (fun i => match nth_error (children_of t q) i with Some e => is_token_of COMMA e | None => false end) (seq 0 (length (children_of t q)))).
Definition active_param (t : tree) (q : place_path) (o : nat) : nat :=
  length (take_while (fun c => r_start (range_at t c) <=? o) (comma_children t q)).

(** parent_ancestors: the nodes above an element, innermost first *)
Fixpoint ups (rp : list nat) : list place_path := match rp with [] => [] | _ :: r => rev r :: ups r end.
Definition parents (p : place_path) : list place_path := ups (rev p).

(** ** Signature help, signature_help.rs:49-99 *)
(** token_at_offset(..).left_biased(), then skip_trivia_token backwards *)
Fixpoint upto (p : place_path) (l : list place_path) : list place_path :=
  match l with [] => [] | x :: r => if path_eqb x p then [x] else x :: upto p r end.
Definition is_trivia_at (t : tree) (p : place_path) : bool := match kind_at t p with Some k => is_trivia k | None => false end.
Definition token_before (t : tree) (o : nat) : option place_path :=
  match token_at_offset t o with
  | [] => None
  | l :: _ => find (fun p => negb (is_trivia_at t p)) (rev (upto l (tokens_from [] t)))
  end.
Inductive target :=
| ForCall (args : place_path) (active : nat)          (* a VALUE_ARG_LIST *)
| ForTypes (args : place_path) (active : nat)         (* a TYPE_ARG_LIST *)
| ForStruct (lit : place_path).                       (* a STRUCT_LIT *)
Definition is_path (o : option place_path) (p : place_path) : bool := match o with Some q => path_eqb q p | None => false end.
Fixpoint find_target (t : tree) (tok : place_path) (l : list place_path) : option target :=
  match l with
  | [] => None
  | q :: r =>
      match kind_at t q with
      | Some VALUE_ARG_LIST => if is_path (child_token t q R_PAREN) tok then find_target t tok r
                               else Some (ForCall q (active_param t q (r_start (range_at t tok))))
      | Some TYPE_ARG_LIST => if is_path (child_token t q R_ANGLE) tok then find_target t tok r
                              else Some (ForTypes q (active_param t q (r_start (range_at t tok))))
      | Some STRUCT_LIT => if match child_node t q STRUCT_LIT_FIELD_LIST with Some fl => is_path (child_token t fl R_CURLY) tok | None => false end
                           then find_target t tok r else Some (ForStruct q)
      | _ => find_target t tok r
      end
  end.
Definition signature_target (t : tree) (o : nat) : option target :=
  match token_before t o with None => None | Some tok => find_target t tok (parents tok) end.

(** *** Struct literals, fields_owner_for_struct_lit, active_parameter.rs:108-146 and signature_help.rs:131-175 *)
(** a field of the literal: what [name_ref] and [field_name] give ([name_ref] is None for the shorthand `S { a }`) *)
Record lit_field := mkLitField { lf_name_ref : option text; lf_field_name : option text }.
Definition text_mem (x : text) (l : list text) : bool := existsb (fun y => if list_eq_dec N.eq_dec y x then true else false) l.
Fixpoint somes {A B} (f : A -> option B) (l : list A) : list B :=
  match l with [] => [] | x :: r => match f x with Some y => y :: somes f r | None => somes f r end end.
Definition active_field (idx : nat) (lits : list lit_field) (declared : list text) : option text :=
  match (match nth_error lits idx with Some l => lf_name_ref l | None => None end) with
  | Some n => Some n
  | None => find (fun n => negb (text_mem n (somes lf_field_name lits))) declared
  end.
(** the parameter that is highlighted: the last declared field of that name, or one past the end *)
Fixpoint highlighted (n : option text) (i : nat) (declared : list text) (acc : nat) : nat :=
  match declared with
  | [] => acc
  | d :: r => highlighted n (S i) r (match n with Some x => if list_eq_dec N.eq_dec x d then i else acc | None => acc end)
  end.
Definition active_field_index (idx : nat) (lits : list lit_field) (declared : list text) : nat :=
  highlighted (active_field idx lits declared) 0 declared (length declared).

(** *** The label, SignatureHelp::push_param, signature_help.rs:36-45 *)
Record help := mkHelp { h_signature : text; h_parameters : list range }.
Definition push_param (h : help) (p : text) : help :=
  let s := match h_parameters h with [] => h_signature h | _ => h_signature h ++ [44%N; 32%N] end in
  mkHelp (s ++ p) (h_parameters h ++ [mkRange (length s) (length (s ++ p))]).
Definition push_params (ps : list text) : help := fold_left push_param ps (mkHelp [] []).
Definition slice_of (x : text) (r : range) : text := firstn (r_end r - r_start r) (skipn (r_start r) x).

(** ** Completion: the expected type, ActiveParameterInfo::at_offset, active_parameter.rs:18-49 *)
(** kmerge_by over the ancestors of (at most) two tokens: the shorter one first, staying with the current
    iterator when they are equally long *)
Definition len_at (t : tree) (p : place_path) : nat := length (text_at t p).
Fixpoint kmerge (t : tree) (fuel : nat) (a b : list place_path) : list place_path :=
  match fuel with
  | O => []
  | S fuel' =>
      match a, b with
      | [], _ => b
      | _, [] => a
      | x :: a', y :: b' => if len_at t y <? len_at t x then y :: kmerge t fuel' b' a else x :: kmerge t fuel' a' b
      end
  end.
Definition ancestors_at_offset (t : tree) (o : nat) : list place_path :=
  match token_at_offset t o with
  | [] => []
  | [l] => parents l
  | l :: r :: _ => kmerge t (S (length (parents l) + length (parents r))) (parents l) (parents r)
  end.
(** AnyCallExpr::can_cast *)
Definition is_call (k : kind) : bool := match k with APPLY_LEMMA | ASSERT_MACRO_EXPR | BEHAVIOR_PREDICATE_EXPR | CALL_EXPR | METHOD_CALL_EXPR => true | _ => false end.
Definition is_call_at (t : tree) (p : place_path) : bool := match kind_at t p with Some k => is_call k | None => false end.
(** TextRange::contains *)
Definition contains_offset (r : range) (o : nat) : bool := (r_start r <=? o) && (o <? r_end r).
Definition args_contain (t : tree) (o : nat) (p : place_path) : bool :=
  match child_node t p VALUE_ARG_LIST with Some a => contains_offset (range_at t a) o | None => false end.
(** call_expr_for_offset, l58-72 *)
Definition call_for_offset (t : tree) (o : nat) : option (place_path * option nat) :=
  match find (args_contain t o) (filter (is_call_at t) (ancestors_at_offset t o)) with
  | None => None
  | Some c => Some (c, option_map (fun a => active_param t a o) (child_node t c VALUE_ARG_LIST))
  end.
(** the call whose parameters are looked up: found again, by its start (l26-29) *)
Definition looked_up_call (t : tree) (o : nat) : option (place_path * option nat) :=
  match call_for_offset t o with
  | None => None
  | Some (c, n) => match find (is_call_at t) (ancestors_at_offset t (r_start (range_at t c))) with Some c' => Some (c', n) | None => None end
  end.
