(** What a diff of two trees is for: replacing the old text by the new one. *)
From Verif Require Import Base TextEditModel TreeSinkModel TreeSinkSpec.

(** [below t c]: [c] is a proper descendant of [t] *)
Inductive below : tree -> tree -> Prop :=
| below_child : forall k ch c, In c ch -> below (TNode k ch) c
| below_deep : forall k ch c x, In c ch -> below c x -> below (TNode k ch) x.

(** no descendant is empty *)
Definition solid (t : tree) : Prop := forall c, below t c -> tree_text c <> [].
(** every token is a Rust string: it does not begin inside a character *)
Definition utf8_tokens (t : tree) : Prop := Forall (fun l => starts_at_char (snd l)) (leaves t).
Definition is_node (t : tree) : Prop := exists k ch, t = TNode k ch.
