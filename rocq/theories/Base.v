(** Shared vocabulary of the model. *)
From Coq Require Export List Arith Lia Bool NArith.
Export ListNotations.

(** Outcome of a Rust computation that may panic (assert!, expect, unwrap, out-of-bounds slicing). *)
Inductive res (A : Type) : Type :=
| Ok (a : A)
| Panic.
Arguments Ok {A} _.
Arguments Panic {A}.

Definition bind {A B} (r : res A) (f : A -> res B) : res B :=
  match r with
  | Ok a => f a
  | Panic => Panic
  end.

(** Rust [String] contents: UTF-8 bytes. *)
Definition byte := N.
Definition text := list byte.

(** A UTF-8 continuation byte 0b10xxxxxx. *)
Definition is_cont (b : byte) : bool := ((128 <=? b) && (b <? 192))%N.

(** [str::is_char_boundary] (Rust std): 0 and len are boundaries, an inner index is one iff its byte
    is not a continuation byte, indices past the end are not. *)
Definition is_char_boundary (t : text) (i : nat) : bool :=
  if i =? 0 then true
  else if i =? length t then true
  else match nth_error t i with
       | Some b => negb (is_cont b)
       | None => false
       end.

(** Consequence of UTF-8 validity used for inserted strings: a string never starts in the middle of
    a character. *)
Definition starts_at_char (t : text) : Prop :=
  match t with
  | [] => True
  | b :: _ => is_cont b = false
  end.
