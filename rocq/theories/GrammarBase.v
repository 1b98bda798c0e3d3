(** The machinery the grammar is written in.

    Source: crates/syntax/src/parse/parser.rs, recovery_set.rs, grammar/utils.rs and the helper functions
    of grammar.rs.  A grammar function is a computation over the parser of ParserModel.v.

    Simplified: token sets are lists of kinds (TokenSetProps.v relates the u128 masks to sets), keyword sets
    are lists of texts.  The recovery-set stack (parser.rs:33) and the statement kind (parser.rs:34) are
    pushed and popped around a closure and only their innermost value is read, so they are fields of the
    environment the closure runs in.  Error messages that quote the current token are replaced by their fixed
    part.  [stdx::panic_context] and [current_context] only format diagnostics and are left out.  A marker
    is made and closed by [marked], which takes what happens in between and how it ends: dropping a marker
    unclosed is the panic of drop_bomb and written [crash] where the code does it. *)
From Coq Require Import String.
From Verif Require Import Base SyntaxKind ParserModel AddressModel TreeSinkProps.

(** RecoverySet, recovery_set.rs:31-35 *)
Record rset := mkRs { rs_kinds : list kind; rs_kws : list text }.
Definition rs_empty : rset := mkRs [] [].
(** from_ts, l57-61 *)
Definition rs_of (l : list kind) : rset := mkRs l [].
(** with_another_rs, l63-67; with_ts, l69-72; with_kw, l74-77 *)
Definition rs_union (a b : rset) : rset := mkRs (rs_kinds a ++ rs_kinds b) (rs_kws a ++ rs_kws b).
Definition rs_kw (s : string) : rset := mkRs [] [str s].
(** without_recovery_token, l91-101, for a kind *)
Definition rs_without (k : kind) (a : rset) : rset := mkRs (filter (fun x => negb (kind_eqb x k)) (rs_kinds a)) (rs_kws a).
Definition mem (k : kind) (l : list kind) : bool := existsb (kind_eqb k) l.

(** StmtKind, grammar/expressions/blocks.rs:19-24 *)
Inductive stmt_kind := SMove | SSpec | SProof.

(** What a computation reads besides the parser: the texts of the significant tokens, whether debug
    assertions are compiled in, and the innermost recovery set and statement kind. *)
Record env := mkEnv { e_texts : list text; e_debug : bool; e_rs : rset; e_sk : stmt_kind }.

(** [Crash]: an assertion of the grammar failed.  [Broken]: an operation on a marker panicked.  [Fuel]: the
    recursion allowance of the model ran out.  The last two are proved impossible. *)
Inductive out (A : Type) := Ret (a : A) (p : parser) | Crash | Broken | Fuel.
Arguments Ret {A}. Arguments Crash {A}. Arguments Broken {A}. Arguments Fuel {A}.
Definition M (A : Type) : Type := env -> parser -> out A.
Definition ret {A} (a : A) : M A := fun _ p => Ret a p.
Definition mbind {A B} (m : M A) (k : A -> M B) : M B := fun e p =>
  match m e p with Ret a p' => k a e p' | Crash => Crash | Broken => Broken | Fuel => Fuel end.
Definition crash {A} : M A := fun _ _ => Crash.
Declare Scope gram_scope.
Delimit Scope gram_scope with gram.
Notation "x <- m ;; k" := (mbind m (fun x => k)) (at level 61, m at next level, right associativity) : gram_scope.
Notation "' p <- m ;; k" := (mbind m (fun p => k)) (at level 61, p pattern, m at next level, right associativity) : gram_scope.
Notation "m ;; k" := (mbind m (fun _ => k)) (at level 61, right associativity) : gram_scope.
Notation "'IF' b 'THEN' m 'ELSE' k" := (mbind b (fun x : bool => if x then m else k)) (at level 61, m at level 61, k at level 61, right associativity) : gram_scope.
Open Scope gram_scope.
Definition skip : M unit := ret tt.

(** * Reading the input *)
Definition test := env -> parser -> bool.
Definition ask (t : test) : M bool := fun e p => Ret (t e p) p.
(** text_token_source.rs:128-142: nth_text, is_keyword *)
Definition text_at (e : env) (p : parser) (n : nat) : text := nth (p_pos p + n) (e_texts e) [].
(** at_contextual_kw, parser.rs:346-348 *)
Definition t_kw (s : string) : test := fun e p => (p_pos p <? length (e_texts e)) && text_eqb (text_at e p 0) (str s).
(** at, parser.rs:181-183; nth_at, l212-244; [p.current() == k] and [p.nth(1) == k] compare raw kinds *)
Definition t_at (k : kind) : test := fun _ p => nth_at p 0 k.
Definition t_nth_at (n : nat) (k : kind) : test := fun _ p => nth_at p n k.
Definition t_cur (k : kind) : test := fun _ p => kind_eqb (current p) k.
Definition t_nth (n : nat) (k : kind) : test := fun _ p => kind_eqb (t_kind (lookahead_nth p n)) k.
(** at_ts, l328-330; nth_at_ts, l193-196 *)
Definition t_ts (l : list kind) : test := fun _ p => mem (current p) l.
Definition t_nth_ts (n : nat) (l : list kind) : test := fun _ p => mem (t_kind (lookahead_nth p n)) l.
(** at_contextual_kw_ident, l341-343 *)
Definition t_kwi (s : string) : test := fun e p => t_at IDENT e p && t_kw s e p.
Definition t_not (t : test) : test := fun e p => negb (t e p).
Definition t_and (t u : test) : test := fun e p => t e p && u e p.
Definition t_or (t u : test) : test := fun e p => t e p || u e p.
(** contains_current, recovery_set.rs:111-122; nth_at_rset, parser.rs:198-210 *)
Definition rs_nth (n : nat) (rs : rset) : test := fun e p =>
  let k := t_kind (lookahead_nth p n) in
  if kind_eqb k IDENT then mem IDENT (rs_kinds rs) || existsb (text_eqb (text_at e p n)) (rs_kws rs)
  else mem k (rs_kinds rs).
Definition rs_here (rs : rset) : test := rs_nth 0 rs.
(** prev_ws, parser.rs:150-162, is 0 *)
Definition t_no_ws : test := fun _ p =>
  match p_pos p with
  | O => true
  | S q => match nth_error (p_toks p) q, nth_error (p_toks p) (S q) with
           | Some (t, off), Some (_, off') => off' - (off + rt_len t) =? 0
           | _, _ => true
           end
  end.

Definition at_ (k : kind) : M bool := ask (t_at k).
Definition nth_at_ (n : nat) (k : kind) : M bool := ask (t_nth_at n k).
Definition cur (k : kind) : M bool := ask (t_cur k).
Definition at_ts (l : list kind) : M bool := ask (t_ts l).
Definition kwi (s : string) : M bool := ask (t_kwi s).
(** [IDENT if p.at_contextual_kw(s)] as a match arm *)
Definition cur_kw (s : string) : M bool := ask (t_and (t_cur IDENT) (t_kw s)).
Definition outer_rs : M rset := fun e p => Ret (e_rs e) p.
Definition stmt_kind_ : M stmt_kind := fun e p => Ret (e_sk e) p.
Definition pos_ : M nat := fun _ p => Ret (p_pos p) p.
Definition debug_ : M bool := fun e p => Ret (e_debug e) p.
Definition rs_test (rs : rset) : M bool := ask (rs_here rs).
Definition assert_ (t : test) : M unit := IF ask t THEN skip ELSE crash.

(** * Changing the environment *)
Definition local {A} (f : env -> env) (m : M A) : M A := fun e p => m (f e) p.
Definition set_rs (rs : rset) (e : env) : env := mkEnv (e_texts e) (e_debug e) rs (e_sk e).
(** with_recovery, with_recovery_token_set, with_recovery_tokens, parser.rs:557-615 *)
Definition with_rs {A} (rs : rset) : M A -> M A := local (fun e => set_rs (rs_union (e_rs e) rs) e).
Definition with_ts {A} (l : list kind) : M A -> M A := with_rs (rs_of l).
(** reset_recovery, l569-576 *)
Definition reset_rs {A} : M A -> M A := local (set_rs rs_empty).
(** with_stmt_kind, l53-62 *)
Definition with_sk {A} (k : stmt_kind) : M A -> M A := local (fun e => mkEnv (e_texts e) (e_debug e) (e_rs e) k).

(** * Consuming *)
Definition upd (f : parser -> parser) : M unit := fun _ p => Ret tt (f p).
Definition eat_ (k : kind) : M bool := fun _ p => let '(b, p') := eat k p in Ret b p'.
(** bump, l361-363 *)
Definition bump (k : kind) : M unit := IF eat_ k THEN skip ELSE crash.
Definition bump_any_ : M unit := upd bump_any.
Definition remap (k : kind) : M unit := upd (bump_remap k).
(** error, l397-399 *)
Definition err (s : string) : M unit := upd (push_error (str s)).
(** expect_with_error, l420-426; expect, l414-416 *)
Definition expect_msg (k : kind) (s : string) : M bool := IF eat_ k THEN ret true ELSE (err s ;; ret false).
Definition expect (k : kind) : M bool := expect_msg k "expected token".

(** * Markers *)
(** CompletedMarker, l626-630 *)
Record cm := mkCm { c_pos : nat; c_kind : kind }.
(** how the life of a marker ends *)
Inductive closing := Complete (k : kind) | Abandon | Rollback | Extend (c : cm).
Definition close (m : nat) (c : closing) (p : parser) : res parser :=
  match c with
  | Complete k => complete m k p
  | Abandon => abandon m p
  | Rollback => rollback m p
  | Extend c => extend_to (c_pos c) m p
  end.
Definition closed (m : nat) (c : closing) : option cm :=
  match c with Complete k => Some (mkCm m k) | Extend c => Some c | _ => None end.
(** [let m = p.start(); ... m.complete(p, k)], or one of the other ends, and the completed marker *)
Definition marked {A} (body : M (closing * A)) : M (option cm * A) := fun e p =>
  let '(m, p1) := start p in
  match body e p1 with
  | Ret (c, a) p2 => match close m c p2 with Ok p3 => Ret (closed m c, a) p3 | Panic => Broken end
  | Crash => Crash
  | Broken => Broken
  | Fuel => Fuel
  end.
(** a marker that is completed in every case *)
Definition node {A} (k : kind) (body : M A) : M cm := fun e p =>
  let '(m, p1) := start p in
  match body e p1 with
  | Ret _ p2 => match complete m k p2 with Ok p3 => Ret (mkCm m k) p3 | Panic => Broken end
  | Crash => Crash
  | Broken => Broken
  | Fuel => Fuel
  end.
(** [let m = c.precede(p); ... m.complete(p, k)] *)
Definition preceded {A} (c : cm) (body : M (kind * A)) : M (cm * A) := fun e p =>
  match precede (c_pos c) p with
  | Panic => Broken
  | Ok (m, p1) =>
      match body e p1 with
      | Ret (k, a) p2 => match complete m k p2 with Ok p3 => Ret (mkCm m k, a) p3 | Panic => Broken end
      | Crash => Crash
      | Broken => Broken
      | Fuel => Fuel
      end
  end.
(** [let pos = p.event_pos(); ... c.abandon_with_rollback(p, pos)], the rollback if the body says so *)
Definition checked {A} (body : M (bool * A)) : M A := fun e p =>
  match event_pos p with
  | Panic => Broken
  | Ok q =>
      match body e p with
      | Ret (true, a) p2 => match rollback_to q p2 with Ok p3 => Ret a p3 | Panic => Broken end
      | Ret (false, a) p2 => Ret a p2
      | Crash => Crash
      | Broken => Broken
      | Fuel => Fuel
      end
  end.
(** wrap_with_error, l401-405 *)
Definition wrap_with_error (c : cm) (s : string) : M unit := preceded c (err s ;; ret (ERROR, tt)) ;; skip.

(** error_and_bump, l444-449 *)
Definition error_and_bump (s : string) : M unit := node ERROR (bump_any_ ;; err s) ;; skip.

(** * Loops *)
(** tokens left: the allowance of a loop that consumes something in every turn *)
Definition left_ (p : parser) : nat := length (p_toks p) - p_pos p.
(** [while !at(EOF) && !rec_set.contains_current { bump_any }], l439-441 *)
Fixpoint skip_loop (fuel : nat) (rs : rset) : M unit :=
  match fuel with
  | O => fun _ _ => Fuel
  | S f => IF ask (t_and (t_not (t_at EOF)) (t_not (rs_here rs))) THEN (bump_any_ ;; skip_loop f rs) ELSE skip
  end.
(** error_and_recover, l429-442 *)
Definition error_and_recover (s : string) (extra : rset) : M unit :=
  outer <- outer_rs ;;
  let rs := rs_union outer extra in
  IF rs_test rs THEN err s ELSE
  (error_and_bump s ;; fun e p => skip_loop (S (left_ p)) rs e p).

(** a loop whose body says whether to go on *)
Fixpoint loop_ {S R} (fuel : nat) (f : S -> M (S + R)) (s : S) : M R :=
  match fuel with
  | O => fun _ _ => Fuel
  | S n => r <- f s ;; match r with inl s' => loop_ n f s' | inr x => ret x end
  end.
Definition loop {S R} (f : S -> M (S + R)) (s : S) : M R := fun e p => loop_ (Datatypes.S (left_ p)) f s e p.

(** iterate_to_EOF and iterate_to_EOF_rec, l82-120; the variables the closure captures are its state [S];
    [f] returns [false] for ControlFlow::Break *)
Definition iter_step {S} (stop : list kind) (f : S -> M (bool * S)) (s : S) : M (S + S) :=
  IF ask (t_or (t_at EOF) (t_ts stop)) THEN ret (inr s) ELSE
  (before <- pos_ ;;
   '(go, s') <- with_ts stop (f s) ;;
   if negb go then ret (inr s') else
   outer <- outer_rs ;;
   IF at_ts (rs_kinds outer) THEN ret (inr s') ELSE
   (now <- pos_ ;;
    if now =? before then (IF debug_ THEN crash ELSE ret (inr s')) else ret (inl s'))).
Definition iterate_to_EOF {S} (stop : list kind) (f : S -> M (bool * S)) (s : S) : M S := loop (iter_step stop f) s.

(** delimited_with_recovery, grammar/utils.rs:12-87; the state is [is_empty] *)
Definition delim_step (element : M bool) (delim : kind) (msg : string) (list_end : option kind) (outer : rset) (is_empty : bool) : M (bool + unit) :=
  let end_ts := match list_end with Some k => [k] | None => [] end in
  let modified := rs_without delim (rs_union outer (rs_of end_ts)) in
  IF ask (t_or (t_at EOF) (t_ts end_ts)) THEN ret (inr tt) ELSE
  (before <- pos_ ;;
   let recover := delim :: match list_end with Some PIPE => [] | Some k => [k] | None => [] end in
   at_element <- with_ts recover element ;;
   let is_empty := if at_element then false else is_empty in
   stop <- (if negb at_element then
              (if mem delim (rs_kinds outer) then ret true
               else IF ask (t_and (fun _ _ => match list_end with Some _ => true | None => false end) (t_and (fun _ _ => is_empty) (t_ts end_ts)))
                    THEN ret true ELSE (error_and_recover msg (rs_of [delim]) ;; ret false))
            else ret false) ;;
   if (stop : bool) then ret (inr tt) else
   IF rs_test modified THEN ret (inr tt) ELSE
   (is_delim <- expect delim ;;
    IF ask (t_and (fun _ _ => is_delim && kind_eqb delim COMMA) (rs_here modified)) THEN ret (inr tt) ELSE
    (now <- pos_ ;;
     if now =? before then (IF debug_ THEN crash ELSE ret (inr tt)) else ret (inl is_empty)))).
Definition delimited (element : M bool) (delim : kind) (msg : string) (list_end : option kind) : M unit :=
  outer <- outer_rs ;; loop (delim_step element delim msg list_end outer) true.
