(** Model of crates/stdext/src/line_endings.rs *)
From Verif Require Import Base.

Definition CR : byte := 13%N.
Definition LF : byte := 10%N.

(** line_endings.rs:4-7 *)
Inductive line_endings := Unix | Dos.

(** [memmem::Finder::new(b"\r\n").find(haystack)]: index of the first occurrence (modelled from the
    documentation of crate memchr). *)
Fixpoint find_crlf (t : text) : option nat :=
  match t with
  | [] => None
  | b :: t' =>
      match t' with
      | c :: _ => if (N.eqb b CR && N.eqb c LF)%bool then Some 0 else option_map S (find_crlf t')
      | [] => None
      end
  end.

(** [slice::copy_within(from..to, 0)]: panics unless from <= to <= len (and the copied part fits,
    which is implied); overwrites the front of the slice. *)
Definition copy_within_front (s : text) (from to : nat) : res text :=
  if (from <=? to) && (to <=? length s)
  then (let moved := firstn (to - from) (skipn from s) in Ok (moved ++ skipn (to - from) s))
  else Panic.

(** [&mut tail[n..]]: panics when n > len. *)
Definition slice_from (s : text) (n : nat) : res text :=
  if n <=? length s then Ok (skipn n s) else Panic.

(** Outcome of the loop at line_endings.rs:24-40. *)
Inductive loop_out :=
| ReturnUnix                        (* early return, the buffer is untouched *)
| Break (buf : text) (gap_len : nat)
| LoopPanic
| OutOfFuel.

(** line_endings.rs:24-40. The buffer is [done ++ tail], where [tail] is the live slice. Recursion
    is on fuel because the Rust loop has no syntactic bound. *)
Fixpoint normalize_loop (fuel : nat) (done tail : text) (gap_len : nat) (crlf_seen : bool) : loop_out :=
  match fuel with
  | 0 => OutOfFuel
  | S fuel' =>
      match slice_from tail gap_len with
      | Panic => LoopPanic
      | Ok hay =>
          let found := find_crlf hay in
          match found, crlf_seen with
          | None, false => ReturnUnix
          | _, _ =>
              let idx := match found with Some i => i + gap_len | None => length tail end in
              let seen := match found with Some _ => true | None => crlf_seen end in
              match copy_within_front tail gap_len idx with
              | Panic => LoopPanic
              | Ok tail1 =>
                  match slice_from tail1 (idx - gap_len) with
                  | Panic => LoopPanic
                  | Ok tail2 =>
                      let done2 := done ++ firstn (idx - gap_len) tail1 in
                      if length tail2 =? gap_len
                      then Break (done2 ++ tail2) gap_len
                      else normalize_loop fuel' done2 tail2 (S gap_len) seen
                  end
              end
          end
      end
  end.

(** line_endings.rs:11-50 [LineEndings::normalize]; [buf.len() - gap_len] panics on underflow and
    [set_len] keeps a prefix of the buffer. [None] means the fuel did not suffice. *)
Definition normalize (fuel : nat) (src : text) : option (res (text * line_endings)) :=
  match normalize_loop fuel [] src 0 false with
  | OutOfFuel => None
  | LoopPanic => Some Panic
  | ReturnUnix => Some (Ok (src, Unix))
  | Break buf gap =>
      if gap <=? length buf
      then Some (Ok (firstn (length buf - gap) buf, Dos))
      else Some Panic
  end.

(** line_endings.rs:52-57 [LineEndings::map]; [text.replace('\n', "\r\n")]. *)
Definition map_endings (e : line_endings) (t : text) : text :=
  match e with
  | Unix => t
  | Dos => flat_map (fun b => if N.eqb b LF then [CR; LF] else [b]) t
  end.
