(** A use group written on one line, and the tree with one node put in the place of another. *)
From Coq Require Import String.
From Verif Require Import Base SyntaxKind TextEditModel ParserModel TreeSinkModel TreeDiffModel AddressModel EditorModel EditorSpec.
Close Scope string_scope.
Close Scope N_scope.
Open Scope nat_scope.
Open Scope list_scope.

(** a, b, c *)
Fixpoint commas (xs : list tree) : list tree :=
  match xs with
  | [] => []
  | x :: r => x :: match r with [] => [] | _ => TTok COMMA (str ",") :: TTok WHITESPACE (str " ") :: commas r end
  end.
(** {a, b, c} *)
Definition group_kids (xs : list tree) : list tree := TTok L_CURLY (str "{") :: commas xs ++ [TTok R_CURLY (str "}")].
Definition use_group (xs : list tree) : tree := TNode USE_GROUP (group_kids xs).
(** the use items, which are not empty *)
Definition use_item (x : tree) : Prop := (exists ch, x = TNode USE_SPECK ch) /\ elem_text x <> [].
(** where the [i]-th item is among the children of the group *)
Definition item_index (i : nat) : nat := 1 + 3 * i.
(** the items of [xs], numbered from [i], that are not among the unused ones *)
Fixpoint used (unused : list nat) (i : nat) (xs : list tree) : list tree :=
  match xs with [] => [] | x :: r => (if in_dec Nat.eq_dec i unused then [] else [x]) ++ used unused (S i) r end.
(** the tree with [e] at a path *)
Fixpoint put_at (t : tree) (p : place_path) (e : tree) : tree :=
  match p with
  | [] => e
  | i :: p' => match t with
               | TNode k ch => match nth_error ch i with Some c => TNode k (firstn i ch ++ put_at c p' e :: skipn (S i) ch) | None => t end
               | TTok _ _ => t
               end
  end.
(** two neighbours at one end of a group of [n] items are both unused *)
Definition end_pair (n : nat) (unused : list nat) : Prop := (In 0 unused /\ In 1 unused) \/ (In (n - 2) unused /\ In (n - 1) unused).
