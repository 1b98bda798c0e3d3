(** What a grammar builds, stated with trees instead of events (C16, C18).

    A run of a grammar is a sequence of calls of the parser primitives.  The handles it passes around are
    the ones the primitives returned.  [step] follows one call on both sides: on the parser model, and on
    a stack of open nodes holding the trees built so far.  It is defined exactly when the call respects
    the discipline of the grammar code: nodes are closed in the reverse order of opening, every handle is
    used once, and only a child of the innermost open node is wrapped ([precede]) or widened
    ([extend_to]). *)
From Verif Require Import Base SyntaxKind ParserModel.

Inductive item :=
| INode (handle : nat) (used : bool) (k : kind) (children : list item)
| IGone (handle : nat)          (* an abandoned marker; contributes nothing *)
| ITok (k : kind) (n : nat)
| IErr (msg : text).

Record frame := mkFrame {
  f_mark : option nat;          (* the open marker; None for a checkpoint *)
  f_prec : bool;                (* made by [precede] *)
  f_items : list item;
  f_snap : option parser        (* the parser when the marker was made; None for [precede] *)
}.

Inductive op :=
| OStart
| OComplete (m : nat) (k : kind)
| OAbandon (m : nat)
| ORollback (m : nat)           (* Marker::abandon_with_rollback *)
| OPrecede (c : nat)
| OExtend (c m : nat)
| OCheck                        (* event_pos *)
| OCommit                       (* the result of event_pos is dropped *)
| ORestore                      (* CompletedMarker::abandon_with_rollback *)
| OBump (k : kind) (n : nat)
| OErr (msg : text).

Fixpoint find_node (c : nat) (l : list item) : option (list item * (kind * list item) * list item) :=
  match l with
  | [] => None
  | INode h false k ch :: r => if h =? c then Some ([], (k, ch), r)
                               else option_map (fun '(a, x, b) => (INode h false k ch :: a, x, b)) (find_node c r)
  | i :: r => option_map (fun '(a, x, b) => (i :: a, x, b)) (find_node c r)
  end.

Definition add_items (l : list item) (f : frame) : frame := mkFrame (f_mark f) (f_prec f) (f_items f ++ l) (f_snap f).
Definition set_items (l : list item) (f : frame) : frame := mkFrame (f_mark f) (f_prec f) l (f_snap f).
Definition is_mark (m : nat) (f : frame) : bool := match f_mark f with Some x => x =? m | None => false end.

Definition state : Type := parser * list frame.

(** [None]: the call breaks the discipline; [Some Panic]: it respects it and the code panics *)
Definition step (st : state) (o : op) : option (res state) :=
  let '(p, stk) := st in
  match o, stk with
  | OStart, _ => let '(m, p') := start p in Some (Ok (p', mkFrame (Some m) false [] (Some p) :: stk))
  | OComplete m k, f :: g :: rest =>
      if is_mark m f && negb (kind_eqb k TOMBSTONE)
      then Some (bind (complete m k p) (fun p' => Ok (p', add_items [INode m false k (f_items f)] g :: rest)))
      else None
  | OAbandon m, f :: g :: rest =>
      if is_mark m f && negb (f_prec f && (S m =? length (p_events p)))
      then Some (bind (abandon m p) (fun p' =>
             Ok (p', add_items ((if S m =? length (p_events p) then [] else [IGone m]) ++ f_items f) g :: rest)))
      else None
  | ORollback m, f :: g :: rest =>
      if is_mark m f && negb (f_prec f) then Some (bind (rollback m p) (fun p' => Ok (p', g :: rest))) else None
  | OPrecede c, f :: rest =>
      match find_node c (f_items f) with
      | Some (a, (k, ch), b) =>
          Some (bind (precede c p) (fun r => Ok (snd r, mkFrame (Some (fst r)) true (INode c true k ch :: b) None :: set_items a f :: rest)))
      | None => None
      end
  | OExtend c m, f :: g :: rest =>
      if is_mark m f && negb (f_prec f)
      then match find_node c (f_items f) with
           | Some (a, (k, ch), b) =>
               Some (bind (extend_to c m p) (fun p' => Ok (p', add_items (INode c false k (IGone m :: a ++ ch) :: b) g :: rest)))
           | None => None
           end
      else None
  | OCheck, _ :: _ =>
      if existsb (fun f => match f_mark f with Some _ => true | None => false end) stk
      then Some (bind (event_pos p) (fun _ => Ok (p, mkFrame None false [] (Some p) :: stk))) else None
  | OCommit, f :: g :: rest => match f_mark f with None => Some (Ok (p, add_items (f_items f) g :: rest)) | Some _ => None end
  | ORestore, f :: g :: rest =>
      match f_mark f, f_snap f with
      | None, Some s => Some (bind (event_pos s) (fun q => bind (rollback_to q p) (fun p' => Ok (p', g :: rest))))
      | _, _ => None
      end
  | OBump k n, f :: rest =>
      if p_pos p + n <=? length (p_toks p) then Some (Ok (do_bump k n p, add_items [ITok k n] f :: rest)) else None
  | OErr msg, f :: rest => Some (Ok (push_error msg p, add_items [IErr msg] f :: rest))
  | _, _ => None
  end.

Fixpoint steps (st : state) (os : list op) : option (res state) :=
  match os with
  | [] => Some (Ok st)
  | o :: os' => match step st o with
                | None => None
                | Some Panic => Some Panic
                | Some (Ok st') => steps st' os'
                end
  end.

Definition base_frame : frame := mkFrame None false [] None.
Definition begin (raw : list raw_token) : state := (parser_new raw, [base_frame]).

(** The calls that build a forest: each node opened, its children, closed. *)
Fixpoint build (i : item) : list call :=
  match i with
  | INode _ _ k ch => CStart k :: flat_map build ch ++ [CFinish]
  | IGone _ => []
  | ITok k n => [CToken k n]
  | IErr m => [CError m]
  end.
