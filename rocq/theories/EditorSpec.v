(** What a batch of requested changes to a tree should give, all at once, and when the changes do not touch
    each other. *)
From Verif Require Import Base SyntaxKind TextEditModel ParserModel TreeSinkModel TreeSinkSpec TreeDiffSpec EditorModel.
Close Scope N_scope.
Open Scope nat_scope.

(** What to put at each place of the tree *)
Record plan := mkPlan {
  first_of : place_path -> list tree;            (** before the first child of the node there *)
  after_of : place_path -> list tree;            (** after the element there *)
  instead_of : place_path -> option (list tree)  (** instead of the element there *)
}.
Definition place_eq_dec : forall a b : place, {a = b} + {a <> b}.
Proof. decide equality; apply (list_eq_dec Nat.eq_dec). Defined.
Definition inserted (a : place) (c : change) : list tree :=
  match c with
  | Insert b e => if place_eq_dec a b then [e] else []
  | InsertAll b es => if place_eq_dec a b then es else []
  | _ => []
  end.
Definition substituted (p : place_path) (c : change) : option (list tree) :=
  match c with
  | Replace q e => if list_eq_dec Nat.eq_dec p q then Some (match e with Some e => [e] | None => [] end) else None
  | ReplaceWithMany q es => if list_eq_dec Nat.eq_dec p q then Some es else None
  | _ => None
  end.
Fixpoint first_some {A B} (f : A -> option B) (l : list A) : option B :=
  match l with [] => None | x :: r => match f x with Some y => Some y | None => first_some f r end end.
Definition requested (cs : list change) : plan :=
  mkPlan (fun p => flat_map (inserted (FirstChild p)) cs) (fun p => flat_map (inserted (AfterElement p)) cs) (fun p => first_some (substituted p) cs).

(** The tree with a plan carried out: what becomes of the element [t] at path [p] *)
Fixpoint carried_out (pl : plan) (p : place_path) (t : tree) : list tree :=
  match instead_of pl p with
  | Some es => es
  | None =>
      [match t with
       | TTok _ _ => t
       | TNode k ch => TNode k (first_of pl p ++
           (fix go (i : nat) (ch : list tree) : list tree :=
              match ch with [] => [] | c :: r => carried_out pl (p ++ [i]) c ++ go (S i) r end) 0 ch)
       end]
  end ++ after_of pl p.

(** * Changes that do not touch each other *)
Definition prefix (p q : place_path) : Prop := exists r, q = p ++ r.
(** the element a change takes away *)
Definition removed (c : change) : option place_path := match c with Replace p _ | ReplaceWithMany p _ => Some p | _ => None end.
Definition spot (c : change) : option place := match c with Insert a _ | InsertAll a _ => Some a | _ => None end.
(** an insertion at [a] leaves the removed element at [p] alone: it is not made right after it, and if [p] is a
    node it is made before it or after it, and not at its edge from inside a deeper neighbour *)
Definition clear_of (t : tree) (a : place) (p : place_path) : Prop :=
  a <> AfterElement p /\ ~ prefix p (place_parent a) /\
  (is_node_at t p = true ->
   place_offset t a < offset_at t p \/ offset_at t p + length (text_at t p) < place_offset t a \/
   (place_offset t a = offset_at t p /\ length (place_parent a) <= length (parent p))).
Definition apart (t : tree) (c d : change) : Prop :=
  match removed c, removed d, spot c, spot d with
  | Some p, Some q, _, _ => ~ prefix p q /\ ~ prefix q p
  | Some p, _, _, Some a | _, Some p, Some a, _ => clear_of t a p
  | _, _, Some a, Some b => a <> b
  | _, _, _, _ => False
  end.
(** a change is about something in the tree; what is taken away is not empty *)
Definition points_into (t : tree) (c : change) : Prop :=
  match removed c, spot c with
  | Some p, _ => text_at t p <> [] /\ (p = [] -> exists k ch, c = Replace [] (Some (TNode k ch)))
  | _, Some (FirstChild p) => exists k c ch, element_at t p = Some (TNode k (c :: ch))
  | _, Some (AfterElement p) => element_at t p <> None /\ p <> []
  | _, _ => False
  end.
(** No node above another one has its kind and its range: then a node is determined by kind and range *)
Definition no_twins (t : tree) : Prop := forall p q k ch ch',
  element_at t p = Some (TNode k ch) -> element_at t q = Some (TNode k ch') -> prefix p q -> range_at t p = range_at t q -> p = q.
