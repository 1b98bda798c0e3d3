(** Model of the parser primitives and of the replay of parser events.

    Source: crates/syntax/src/parse/parser.rs (Parser, Marker, CompletedMarker),
    crates/syntax/src/parse/text_token_source.rs and crates/syntax/src/parse/event.rs.

    Simplified: positions and distances are unbounded numbers (u32/u8 in the code), error messages are
    opaque texts, the recovery-set stack and the statement kind (parser.rs:35-36) are left out: they are
    read by the grammar only and touched by none of the primitives below.  Dropping a marker that was
    neither completed nor abandoned panics in the code (drop_bomb); the discipline of ParserSpec.v
    demands that this does not happen. *)
From Verif Require Import Base SyntaxKind.

(** * Token source, text_token_source.rs *)
Record raw_token := mkRaw { rt_kind : kind; rt_len : nat }.

(** TextTokenSource::new, l36-61: significant tokens with their offsets *)
Fixpoint significant (offset : nat) (raw : list raw_token) : list (raw_token * nat) :=
  match raw with
  | [] => []
  | t :: raw' =>
      let rest := significant (offset + rt_len t) raw' in
      if is_trivia (rt_kind t) then rest else (t, offset) :: rest
  end.

Record token := mkTok { t_kind : kind; t_jointed : bool }.
(** token_at_pos, l143-156 *)
Definition token_at_pos (toks : list (raw_token * nat)) (pos : nat) : token :=
  match nth_error toks pos with
  | Some (t, off) =>
      mkTok (rt_kind t) (match nth_error toks (S pos) with Some (_, next) => off + rt_len t =? next | None => false end)
  | None => mkTok EOF false
  end.

(** * Events, event.rs:25-95 *)
Inductive event :=
| EStart (k : kind) (forward_parent : option nat)
| EFinish
| EToken (k : kind) (n_raw_tokens : nat)
| EError (msg : text).
Definition tombstone : event := EStart TOMBSTONE None.

(** * Parser state, parser.rs:31-36 *)
Record parser := mkParser {
  p_toks : list (raw_token * nat);
  p_pos : nat;
  p_events : list event
}.
(** Parser::new, l39-47 *)
Definition parser_new (raw : list raw_token) : parser := mkParser (significant 0 raw) 0 [].
Definition set_events (es : list event) (p : parser) : parser := mkParser (p_toks p) (p_pos p) es.
Definition push_event (e : event) (p : parser) : parser := set_events (p_events p ++ [e]) p.

(** lookahead: parser.rs:156-168, text_token_source.rs:70-73 *)
Definition lookahead_nth (p : parser) (n : nat) : token := token_at_pos (p_toks p) (p_pos p + n).
Definition nth_kind (p : parser) (n : nat) : res kind := if n <=? 3 then Ok (t_kind (lookahead_nth p n)) else Panic.
Definition current (p : parser) : kind := t_kind (lookahead_nth p 0).
(** at_composite2 / at_composite3, l281-300 *)
Definition at_composite2 (p : parser) (n : nat) (k1 k2 : kind) : bool :=
  let t1 := lookahead_nth p n in
  if negb (kind_eqb (t_kind t1) k1) || negb (t_jointed t1) then false
  else kind_eqb (t_kind (lookahead_nth p (n + 1))) k2.
Definition at_composite3 (p : parser) (n : nat) (k1 k2 k3 : kind) : bool :=
  let t1 := lookahead_nth p n in
  if negb (kind_eqb (t_kind t1) k1) || negb (t_jointed t1) then false
  else let t2 := lookahead_nth p (n + 1) in
  if negb (kind_eqb (t_kind t2) k2) || negb (t_jointed t2) then false
  else kind_eqb (t_kind (lookahead_nth p (n + 2))) k3.
(** nth_at, l203-237 *)
Definition nth_at (p : parser) (n : nat) (k : kind) : bool :=
  match k with
  | AMP_AMP => at_composite2 p n AMP AMP
  | SHL => at_composite2 p n L_ANGLE L_ANGLE
  | LT_EQ => at_composite2 p n L_ANGLE EQ
  | GT_EQ => at_composite2 p n R_ANGLE EQ
  | SHR => at_composite2 p n R_ANGLE R_ANGLE
  | PIPE_PIPE => at_composite2 p n PIPE PIPE
  | SHL_EQ => at_composite3 p n L_ANGLE L_ANGLE EQ
  | SHR_EQ => at_composite3 p n R_ANGLE R_ANGLE EQ
  | LESS_IMPLIES => at_composite2 p n L_ANGLE IMPLIES
  | _ => kind_eqb (t_kind (lookahead_nth p n)) k
  end.

(** token source bump, text_token_source.rs:76-83: nothing at the end of input *)
Definition bump1 (p : parser) : parser :=
  if kind_eqb (t_kind (token_at_pos (p_toks p) (p_pos p))) EOF then p
  else mkParser (p_toks p) (S (p_pos p)) (p_events p).
Fixpoint bump_n (n : nat) (p : parser) : parser := match n with O => p | S n' => bump_n n' (bump1 p) end.
(** pop_position, l86-89: panics (subtraction overflow) at position 0 *)
Definition pop_position (p : parser) : res parser :=
  match p_pos p with O => Panic | S q => Ok (mkParser (p_toks p) q (p_events p)) end.
Fixpoint pop_n (n : nat) (p : parser) : res parser := match n with O => Ok p | S n' => bind (pop_position p) (pop_n n') end.

(** do_bump, parser.rs:451-457 *)
Definition do_bump (k : kind) (n : nat) (p : parser) : parser := push_event (EToken k n) (bump_n n p).
(** number of raw tokens glued by [eat], l244-277 *)
Definition n_raw (k : kind) : nat :=
  match k with
  | AMP_AMP | SHL | LT_EQ | GT_EQ | SHR | PIPE_PIPE => 2
  | SHL_EQ | SHR_EQ => 3
  | LESS_IMPLIES => 2
  | _ => 1
  end.
(** eat, l240-279 *)
Definition eat (k : kind) (p : parser) : bool * parser := if nth_at p 0 k then (true, do_bump k (n_raw k) p) else (false, p).
(** bump_any, l365-372; bump_remap, l380-386 *)
Definition bump_any (p : parser) : parser := if kind_eqb (current p) EOF then p else do_bump (current p) 1 p.
Definition bump_remap (k : kind) (p : parser) : parser := if kind_eqb (current p) EOF then p else do_bump k 1 p.
(** push_error, l407-410 *)
Definition push_error (msg : text) (p : parser) : parser := push_event (EError msg) p.

Definition split_last {A} (l : list A) : option (list A * A) :=
  match rev l with [] => None | x :: r => Some (rev r, x) end.
(** pop_event, l463-471 *)
Definition pop_event (p : parser) : res parser :=
  match split_last (p_events p) with
  | None => Ok p
  | Some (es, EToken _ n) => pop_n n (set_events es p)
  | Some (es, _) => Ok (set_events es p)
  end.
Fixpoint pop_events (n : nat) (p : parser) : res parser := match n with O => Ok p | S n' => bind (pop_event p) (pop_events n') end.

(** * Markers *)
Fixpoint replace_at {A} (l : list A) (i : nat) (x : A) : list A :=
  match l, i with [], _ => [] | _ :: l', O => x :: l' | y :: l', S i' => y :: replace_at l' i' x end.

(** Parser::start, l342-347: the marker is the index of its event *)
Definition start (p : parser) : nat * parser := (length (p_events p), push_event tombstone p).
(** Marker::complete, l500-514 *)
Definition complete (m : nat) (k : kind) (p : parser) : res parser :=
  match nth_error (p_events p) m with
  | Some (EStart _ fp) => Ok (push_event EFinish (set_events (replace_at (p_events p) m (EStart k fp)) p))
  | _ => Panic
  end.
(** Marker::abandon, l518-531 *)
Definition abandon (m : nat) (p : parser) : res parser :=
  match split_last (p_events p) with
  | None => Panic
  | Some (es, e) =>
      if m =? length es then match e with EStart TOMBSTONE None => Ok (set_events es p) | _ => Panic end else Ok p
  end.
(** Marker::abandon_with_rollback, l534-551 *)
Definition rollback (m : nat) (p : parser) : res parser :=
  match split_last (p_events p) with
  | None => Panic
  | Some (es, e) =>
      if m =? length es then match e with EStart TOMBSTONE None => Ok (set_events es p) | _ => Panic end
      else pop_events (length (p_events p) - m) p
  end.
(** CompletedMarker::precede, l644-655 *)
Definition precede (c : nat) (p : parser) : res (nat * parser) :=
  let '(m, p1) := start p in
  match nth_error (p_events p1) c with
  | Some (EStart k _) => Ok (m, set_events (replace_at (p_events p1) c (EStart k (Some (m - c)))) p1)
  | _ => Panic
  end.
(** CompletedMarker::extend_to, l658-669; the subtraction is checked *)
Definition extend_to (c m : nat) (p : parser) : res parser :=
  match nth_error (p_events p) m with
  | Some (EStart k _) => if m <=? c then Ok (set_events (replace_at (p_events p) m (EStart k (Some (c - m)))) p) else Panic
  | _ => Panic
  end.
(** Parser::event_pos, l120-122 *)
Definition event_pos (p : parser) : res nat := match length (p_events p) with O => Panic | S n => Ok n end.
(** CompletedMarker::abandon_with_rollback, l676-680: pops until the given length; does not terminate if
    there are fewer events, which is reported as [Panic] here *)
Definition rollback_to (parent : nat) (p : parser) : res parser :=
  if length (p_events p) <? S parent then Panic else pop_events (length (p_events p) - S parent) p.

(** * Replaying the events, event.rs:97-137 *)
(** calls made on the tree sink *)
Inductive call := CStart (k : kind) | CFinish | CToken (k : kind) (n : nat) | CError (msg : text).

(** the inner loop, l114-125: every event it visits is replaced by a tombstone, so it visits at most
    every event once and once more *)
Fixpoint follow (fuel : nat) (es : list event) (idx : nat) (fp : option nat) (acc : list kind) : res (list event * list kind) :=
  match fp with
  | None => Ok (es, acc)
  | Some d =>
      match fuel with
      | O => Panic
      | S f =>
          match nth_error es (idx + d) with
          | Some (EStart k fp') => follow f (replace_at es (idx + d) tombstone) (idx + d) fp' (acc ++ [k])
          | _ => Panic
          end
      end
  end.
Definition starts_of (ks : list kind) : list call :=
  map CStart (filter (fun k => negb (kind_eqb k TOMBSTONE)) (rev ks)).
(** the outer loop over [i..i+n) *)
Fixpoint process_from (n i : nat) (es : list event) : res (list call) :=
  match n with
  | O => Ok []
  | S n' =>
      match nth_error es i with
      | None => Panic
      | Some e =>
          let es1 := replace_at es i tombstone in
          match e with
          | EStart k fp =>
              bind (follow (S (length es)) es1 i fp [k]) (fun r =>
              let '(es2, ks) := r in
              bind (process_from n' (S i) es2) (fun out => Ok (starts_of ks ++ out)))
          | EFinish => bind (process_from n' (S i) es1) (fun out => Ok (CFinish :: out))
          | EToken k n => bind (process_from n' (S i) es1) (fun out => Ok (CToken k n :: out))
          | EError m => bind (process_from n' (S i) es1) (fun out => Ok (CError m :: out))
          end
      end
  end.
Definition process (es : list event) : res (list call) := process_from (length es) 0 es.
