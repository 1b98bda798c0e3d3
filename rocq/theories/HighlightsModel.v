(** Model of crates/ide/src/syntax_highlighting/highlights.rs. Highlight tags are abstracted to numbers. *)
From Verif Require Import Base.

(** syntax_highlighting.rs:25-29 [HlRange] *)
Record hl_range := mkHl { h_start : nat; h_end : nat; h_tag : N }.

(** highlights.rs:17-20 [Node] *)
Inductive node := Node (r : hl_range) (nested : list node).
Definition n_range (n : node) : hl_range := match n with Node r _ => r end.
Definition n_nested (n : node) : list node := match n with Node _ l => l end.

(** text-size [TextRange::contains_range] *)
Definition contains_range (a b : hl_range) : bool :=
  (h_start a <=? h_start b) && (h_end b <=? h_end a).

(** text-size [TextRange::ordering] *)
Inductive ordering := Less | Equal | Greater.
Definition range_ordering (a b : hl_range) : ordering :=
  if h_end a <=? h_start b then Less else if h_end b <=? h_start a then Greater else Equal.

(** [partition_point]: modelled as the length of the leading run; the children are proved to be
    partitioned, where binary search returns the same. *)
Fixpoint leading (p : node -> bool) (l : list node) : nat :=
  match l with
  | [] => 0
  | x :: l' => if p x then S (leading p l') else 0
  end.

(** stdx::equal_range_by (external crate): start and length of the run comparing equal. *)
Definition equal_range (l : list node) (x : hl_range) : nat * nat :=
  let start := leading (fun n => match range_ordering (n_range n) x with Less => true | _ => false end) l in
  let len := leading (fun n => match range_ordering (n_range n) x with Equal => true | _ => false end) (skipn start l) in
  (start, len).

(** What [Node::add] does with the list of children (highlights.rs:51-78). *)
Inductive decision := Recurse (i : nat) | PushEnd | Splice (start len : nat).

Definition slow_path (l : list node) (x : hl_range) : decision :=
  let '(start, len) := equal_range l x in
  match len, nth_error l start with
  | 1, Some c => if contains_range (n_range c) x then Recurse start else Splice start len
  | _, _ => Splice start len
  end.

Definition decide (l : list node) (x : hl_range) : decision :=
  match nth_error l (length l - 1) with
  | Some last =>
      if contains_range (n_range last) x then Recurse (length l - 1)
      else if h_end (n_range last) <=? h_start x then PushEnd
      else slow_path l x
  | None => slow_path l x
  end.

(** highlights.rs:48-79 [Node::add] *)
Fixpoint add (n : node) (x : hl_range) {struct n} : res node :=
  match n with
  | Node r l =>
      if contains_range r x then
        match decide l x with
        | PushEnd => Ok (Node r (l ++ [Node x []]))
        | Splice start len =>
            Ok (Node r (firstn start l ++ Node x (firstn len (skipn start l)) :: skipn (start + len) l))
        | Recurse i =>
            let upd := fix upd (l : list node) (i : nat) {struct l} : res (list node) :=
              match l, i with
              | [], _ => Panic
              | c :: l', 0 => match add c x with Ok c' => Ok (c' :: l') | Panic => Panic end
              | c :: l', S i' => match upd l' i' with Ok l'' => Ok (c :: l'') | Panic => Panic end
              end in
            match upd l i with Ok l' => Ok (Node r l') | Panic => Panic end
        end
      else Panic
  end.

(** highlights.rs:22-31 [Highlights::new] followed by a series of [add]. *)
Fixpoint add_all (n : node) (xs : list hl_range) : res node :=
  match xs with
  | [] => Ok n
  | x :: xs' => bind (add n x) (fun n' => add_all n' xs')
  end.

Definition piece (s e : nat) (t : N) : list hl_range := if s <? e then [mkHl s e t] else [].

(** highlights.rs:81-101 [Node::flatten] *)
Fixpoint flatten (n : node) : list hl_range :=
  match n with
  | Node r l =>
      (fix go (start : nat) (l : list node) {struct l} : list hl_range :=
         match l with
         | [] => piece start (h_end r) (h_tag r)
         | c :: l' => piece start (h_start (n_range c)) (h_tag r) ++ flatten c ++ go (h_end (n_range c)) l'
         end) (h_start r) l
  end.

(** A syntax tree with the result of [highlight::token] / [name_like] already attached to each element
    (syntax_highlighting.rs:86-99: None for whitespace, for other nodes, and when nothing is to be highlighted).
    [Tok] carries its length in bytes. *)
Inductive elem := Tok (len : nat) (hl : option N) | Nd (hl : option N) (children : list elem).

Fixpoint width (e : elem) : nat :=
  match e with
  | Tok len _ => len
  | Nd _ l => (fix go (l : list elem) : nat := match l with [] => 0 | c :: l' => width c + go l' end) l
  end.

(** text-size [TextRange::intersect] is [None] exactly when max of starts > min of ends. *)
Definition intersects (view : nat * nat) (s e : nat) : bool :=
  Nat.max (fst view) s <=? Nat.min (snd view) e.

Definition emit (view : nat * nat) (s e : nat) (hl : option N) : list hl_range :=
  match hl with
  | Some t => if intersects view s e then [mkHl s e t] else []
  | None => []
  end.

(** syntax_highlighting.rs:62-109 [traverse]: the ranges passed to [Highlights::add], in order. *)
Fixpoint traverse (view : nat * nat) (off : nat) (e : elem) : list hl_range :=
  match e with
  | Tok len hl => emit view off (off + len) hl
  | Nd hl l =>
      emit view off (off + width (Nd hl l)) hl ++
      (fix go (off : nat) (l : list elem) : list hl_range :=
         match l with [] => [] | c :: l' => traverse view off c ++ go (off + width c) l' end) off l
  end.

(** syntax_highlighting.rs:34-60 [highlight]: [off] is the offset of the covering node [root],
    [no_hl] the tag of [HlTag::None]. *)
Definition no_hl : N := 0%N.
Definition highlight (view : nat * nat) (off : nat) (root : elem) : res (list hl_range) :=
  match add_all (Node (mkHl off (off + width root) no_hl) []) (traverse view off root) with
  | Ok n => Ok (flatten n)
  | Panic => Panic
  end.
