(** Model of request handling: crates/aptos-language-server/src/main_loop.rs:183-232, 318-323, 421-515,
    global_state.rs:218-246, handlers/dispatch.rs:37-402. The answers of request handlers, the moments worker
    threads finish and the delivery order of their results are supplied by the schedule (any are allowed). *)
From Verif Require Import Base.

Notation req_id := nat (only parsing).

(** The methods dispatched in main_loop.rs:434-513; [OtherMethod] is any method without a handler. *)
Inductive lsp_method :=
| Shutdown | SelectionRange | DocumentFormatting | Completion | CompletionResolve | SemanticTokensFull
| SemanticTokensRange | DocumentDiagnostic | DocumentSymbol | SignatureHelp | Hover | GotoDefinition | InlayHint
| InlayHintResolve | CodeLens | CodeLensResolve | PrepareRename | Rename | References | DocumentHighlight
| WorkspaceSymbol | CodeAction | CodeActionResolve | AnalyzerStatus | ViewSyntaxTree | OrganizeImports
| OtherMethod (name : nat).

Definition method_eq_dec : forall a b : lsp_method, {a = b} + {a <> b}.
Proof. decide equality. apply Nat.eq_dec. Defined.

(** How the dispatcher treats a method. *)
Inductive dispatch :=
| OnSync                      (* dispatch.rs:78-105 *)
| OnFmtThread                 (* dispatch.rs:210-224: no VFS check, no retry *)
| OnPool (retry : bool)       (* dispatch.rs:109-133 [on], 136-159 [on_with_vfs_default], 186-207 [on_latency_sensitive] *)
| OnIdentity (retry : bool).  (* dispatch.rs:162-183 *)

(** main_loop.rs:466-512: the chain after the shutdown handler *)
Definition chain : list (lsp_method * dispatch) :=
  [ (SelectionRange, OnSync); (DocumentFormatting, OnFmtThread); (Completion, OnPool true);
    (CompletionResolve, OnPool true); (SemanticTokensFull, OnPool true); (SemanticTokensRange, OnPool false);
    (DocumentDiagnostic, OnPool false); (DocumentSymbol, OnPool true); (SignatureHelp, OnPool false);
    (Hover, OnPool false); (GotoDefinition, OnPool false); (InlayHint, OnPool false); (InlayHintResolve, OnIdentity false);
    (CodeLens, OnPool false); (CodeLensResolve, OnIdentity false); (PrepareRename, OnPool false); (Rename, OnPool false);
    (References, OnPool false); (DocumentHighlight, OnPool false); (WorkspaceSymbol, OnPool true); (CodeAction, OnPool false);
    (CodeActionResolve, OnIdentity true); (AnalyzerStatus, OnPool true); (ViewSyntaxTree, OnPool false);
    (OrganizeImports, OnPool false) ].

(** A request; [r_params] says whether its parameters parse for its method. *)
Record request := mkReq { r_id : req_id; r_method : lsp_method; r_params : bool }.

(** Outcome of a handler: a result, an error, a panic, or a cancellation by a database write. *)
Inductive outcome := OutOk | OutError | OutPanic | OutCancelled.

Inductive reply :=
| RHandler (o : outcome)   (* what the handler produced; for OutCancelled the content-modified error *)
| RDefault                 (* default result: files not loaded yet *)
| RInvalidParams | RMethodNotFound | RShutdownAlready
| RShutdownOk | RRequestCanceled.

(** Results travelling from the worker threads to the main loop (main_loop.rs [Task]). *)
Inductive task := TResponse (id : req_id) (r : reply) | TRetry (r : request).

Record state := mkSt {
  pending : list req_id;            (* req_queue.incoming *)
  jobs : list (request * bool);     (* closures running in a pool, with ALLOW_RETRYING *)
  tasks : list task;                (* messages in the channels *)
  shutdown_requested : bool;
  vfs_ready : bool;                 (* vfs_initialized_and_loaded(), controlled by the environment *)
  sent : list (req_id * reply);     (* responses written to the client, oldest first *)
  started : list req_id             (* ghost: requests whose handler was run or spawned, oldest first *)
}.

Definition initial : state := mkSt [] [] [] false false [] [].

Definition is_pending (st : state) (id : req_id) : bool := existsb (Nat.eqb id) (pending st).
Definition drop_id (id : req_id) (l : list req_id) : list req_id := filter (fun x => negb (Nat.eqb id x)) l.

(** lsp_server::ReqQueue::incoming.register: insertion into a map *)
Definition register (id : req_id) (st : state) : state :=
  mkSt (id :: drop_id id (pending st)) (jobs st) (tasks st) (shutdown_requested st) (vfs_ready st) (sent st) (started st).

(** global_state.rs:224-236 [respond]: only if still registered *)
Definition respond (id : req_id) (r : reply) (st : state) : state :=
  if is_pending st id then
    mkSt (drop_id id (pending st)) (jobs st) (tasks st) (shutdown_requested st) (vfs_ready st) (sent st ++ [(id, r)]) (started st)
  else st.

(** global_state.rs:238-242 [cancel]; lsp_server::Incoming::cancel completes and answers RequestCanceled *)
Definition cancel (id : req_id) (st : state) : state := respond id RRequestCanceled st.

Definition set_shutdown (st : state) : state :=
  mkSt (pending st) (jobs st) (tasks st) true (vfs_ready st) (sent st) (started st).
Definition set_ready (b : bool) (st : state) : state :=
  mkSt (pending st) (jobs st) (tasks st) (shutdown_requested st) b (sent st) (started st).
Definition note_started (id : req_id) (st : state) : state :=
  mkSt (pending st) (jobs st) (tasks st) (shutdown_requested st) (vfs_ready st) (sent st) (started st ++ [id]).
Definition spawn (r : request) (retry : bool) (st : state) : state :=
  note_started (r_id r) (mkSt (pending st) (jobs st ++ [(r, retry)]) (tasks st) (shutdown_requested st) (vfs_ready st) (sent st) (started st)).

(** dispatch.rs:290-316 [parse] then a continuation *)
Definition parsed (r : request) (k : state -> state) (st : state) : state :=
  if r_params r then k st else respond (r_id r) RInvalidParams st.

(** dispatch.rs:243-288 [on_with_thread_intent] *)
Definition on_thread (r : request) (retry : bool) : state -> state := parsed r (spawn r retry).

(** One matching link of the chain; [o] is what the handler answers if it runs on the main thread. *)
Definition run_dispatch (d : dispatch) (r : request) (o : outcome) (st : state) : state :=
  match d with
  | OnSync =>
      parsed r (fun st =>
        let st := note_started (r_id r) st in
        match o with
        | OutCancelled => st                        (* [if let Ok(response)]: nothing is sent *)
        | _ => respond (r_id r) (RHandler o) st
        end) st
  | OnFmtThread => on_thread r false st
  | OnPool retry => if vfs_ready st then on_thread r retry st else respond (r_id r) RDefault st
  | OnIdentity retry =>
      if vfs_ready st then on_thread r retry st else parsed r (respond (r_id r) RDefault) st
  end.

(** The chain of dispatcher calls followed by [finish] (dispatch.rs:226-236). A link whose method does not
    match leaves the request for the next one; a matching link takes it. *)
Fixpoint run_chain (c : list (lsp_method * dispatch)) (r : request) (o : outcome) (st : state) : state :=
  match c with
  | [] => respond (r_id r) RMethodNotFound st
  | (m, d) :: c' => if method_eq_dec (r_method r) m then run_dispatch d r o st else run_chain c' r o st
  end.

(** main_loop.rs:428-515 [on_request] *)
Definition on_request (r : request) (o : outcome) (st : state) : state :=
  if method_eq_dec (r_method r) Shutdown then
    (* on_sync_mut with the shutdown closure, dispatch.rs:47-75; afterwards [req] is taken *)
    parsed r (fun st => respond (r_id r) RShutdownOk (set_shutdown (note_started (r_id r) st))) st
  else if shutdown_requested st then respond (r_id r) RShutdownAlready st
  else run_chain chain r o st.

(** main_loop.rs:421-425 [on_new_request] *)
Definition on_new_request (r : request) (o : outcome) (st : state) : state := on_request r o (register (r_id r) st).

(** dispatch.rs:267-285: what the worker closure sends back *)
Definition worker_result (r : request) (retry : bool) (o : outcome) : task :=
  match o with
  | OutCancelled => if retry then TRetry r else TResponse (r_id r) (RHandler OutCancelled)
  | _ => TResponse (r_id r) (RHandler o)
  end.

(** main_loop.rs:318-323 [handle_task] *)
Definition handle_task (t : task) (o : outcome) (st : state) : state :=
  match t with
  | TResponse id r => respond id r st
  | TRetry r => if is_pending st (r_id r) then on_request r o st else st
  end.

Fixpoint take {A} (i : nat) (l : list A) : option (A * list A) :=
  match l, i with
  | [], _ => None
  | a :: l', 0 => Some (a, l')
  | a :: l', S i' => match take i' l' with Some (b, l'') => Some (b, a :: l'') | None => None end
  end.

(** What the environment can do next. *)
Inductive event :=
| ERequest (r : request) (o : outcome)   (* o: outcome if the handler is synchronous *)
| ECancel (id : req_id)
| EFinish (i : nat) (o : outcome)        (* i-th running job ends *)
| EDeliver (i : nat) (o : outcome)       (* i-th message reaches the main loop *)
| EVfs (b : bool).

Definition step (st : state) (e : event) : state :=
  match e with
  | ERequest r o => on_new_request r o st
  | ECancel id => cancel id st
  | EFinish i o =>
      match take i (jobs st) with
      | Some ((r, retry), js) =>
          mkSt (pending st) js (tasks st ++ [worker_result r retry o]) (shutdown_requested st) (vfs_ready st) (sent st) (started st)
      | None => st
      end
  | EDeliver i o =>
      match take i (tasks st) with
      | Some (t, ts) =>
          handle_task t o (mkSt (pending st) (jobs st) ts (shutdown_requested st) (vfs_ready st) (sent st) (started st))
      | None => st
      end
  | EVfs b => set_ready b st
  end.

Definition run (st : state) (es : list event) : state := fold_left step es st.
