(** Model of the server's workspace state and main loop turns:
    crates/aptos-language-server/src/{main_loop.rs:120-262,318-418, reload.rs:57-83,118-233, op_queue.rs, file_changes.rs,
    opened_files.rs, handlers/notification.rs:48-248}, crates/base-db/src/{change.rs:61-95, inputs.rs:91-167}.
    Re-modelled external crates: vfs (Vfs::set_file_contents, take_changes, iter, file_id) and vfs-notify (the loader).
    Simplified: file ids are paths (the interner is a bijection); content hashes are the contents; the built-ins file,
    package graph, durabilities and spec-file sets are left out; the results of apply_document_changes (see
    LspTextModel), of loading packages and of reading files from disk are supplied by the history. *)
From Coq Require Import String.
From Verif Require Import Base LineEndingsModel AddressModel FileSetModel.

(** * Association lists (HashMap / IndexMap / DashMap) *)
Fixpoint aget {A} (l : list (path * A)) (k : path) : option A :=
  match l with
  | [] => None
  | (k', v) :: l' => if text_eqb k' k then Some v else aget l' k
  end.
Fixpoint aset {A} (l : list (path * A)) (k : path) (v : A) : list (path * A) :=
  match l with
  | [] => [(k, v)]
  | (k', v') :: l' => if text_eqb k' k then (k, v) :: l' else (k', v') :: aset l' k v
  end.
Definition adel {A} (l : list (path * A)) (k : path) : list (path * A) := filter (fun e => negb (text_eqb (fst e) k)) l.

(** * UTF-8 validation: String::from_utf8 (Rust std) *)
Definition between (lo hi b : byte) : bool := ((lo <=? b) && (b <=? hi))%N.
Arguments between (_ _ _)%N_scope.
Fixpoint utf8_valid (t : text) : bool :=
  match t with
  | [] => true
  | b :: t1 =>
      if (b <? 128)%N then utf8_valid t1 else
      match t1 with
      | [] => false
      | b1 :: t2 =>
          if between 194 223 b then is_cont b1 && utf8_valid t2 else
          match t2 with
          | [] => false
          | b2 :: t3 =>
              if N.eqb b 224%N then between 160 191 b1 && is_cont b2 && utf8_valid t3 else
              if between 225 236 b || between 238 239 b then is_cont b1 && is_cont b2 && utf8_valid t3 else
              if N.eqb b 237%N then between 128 159 b1 && is_cont b2 && utf8_valid t3 else
              match t3 with
              | [] => false
              | b3 :: t4 =>
                  if N.eqb b 240%N then between 144 191 b1 && is_cont b2 && is_cont b3 && utf8_valid t4 else
                  if between 241 243 b then is_cont b1 && is_cont b2 && is_cont b3 && utf8_valid t4 else
                  if N.eqb b 244%N then between 128 143 b1 && is_cont b2 && is_cont b3 && utf8_valid t4 else false
              end
          end
      end
  end.

(** file_changes.rs:79-102: the text stored for a file's bytes; LineEndings::normalize with enough fuel *)
Definition normalize_text (b : text) : text :=
  match normalize (S (length b)) b with
  | Some (Ok (t, _)) => t
  | _ => []
  end.
Definition text_of_bytes (b : text) : option text := if utf8_valid b then Some (normalize_text b) else None.

(** * The virtual file system *)
Inductive change := Create (b : text) | Modify (b : text) | Delete.
Record vfs := mkVfs {
  v_data : list (path * option text);   (* allocated ids in order; None = Deleted *)
  v_changes : list (path * change)      (* pending changes, one per file *)
}.
Definition v_content (v : vfs) (p : path) : option text :=
  match aget (v_data v) p with Some (Some b) => Some b | _ => None end.
(** Vfs::iter: existing files in allocation order *)
Definition v_files (v : vfs) : list path := map fst (filter (fun e => match snd e with Some _ => true | None => false end) (v_data v)).

(** merging of two changes of one file within a cycle *)
Definition merge_change (old new : change) : change :=
  match old, new with
  | _, Delete => Delete
  | Create _, Create b | Create _, Modify b => Create b
  | Modify _, Modify b => Modify b
  | Delete, Create b => Modify b
  | Delete, Modify b => Create b
  | Modify _, Create b => Create b
  end.

(** Vfs::set_file_contents *)
Definition set_file_contents (v : vfs) (p : path) (contents : option text) : vfs :=
  let ch := match v_content v p, contents with
            | None, None => None
            | None, Some b => Some (Create b)
            | Some _, None => Some Delete
            | Some old, Some b => if text_eqb old b then None else Some (Modify b)
            end in
  match ch with
  | None => mkVfs (match aget (v_data v) p with Some _ => v_data v | None => aset (v_data v) p None end) (v_changes v)
  | Some c =>
      mkVfs (aset (v_data v) p contents)
            (aset (v_changes v) p (match aget (v_changes v) p with Some old => merge_change old c | None => c end))
  end.

(** * Server state *)
Record load_result := mkLR { lr_error : bool; lr_roots : list path }.

(** messages of the loader: vfs::loader::Message *)
Inductive progress := Started | InProgress | Finished.
Inductive vmsg :=
| Loaded (files : list (path * option text))
| Changed (files : list (path * option text))
| Progress (version : nat) (p : progress).
(** messages to the loader *)
Inductive lmsg := LConfig (version : nat) | LInvalidate (p : path).

(** ghost log of the reload queue *)
Inductive qevent := QRequest (force : bool) | QStart (force : bool) | QEnd.

Record state := mkState {
  s_vfs : vfs;
  opened : list (path * text);          (* opened_files *)
  roots : list path;                    (* package_root_config *)
  packages : list path;                 (* all_packages, by root *)
  db_text : list (path * text);         (* Files::files *)
  db_package : list (path * nat);       (* Files::file_package_ids *)
  q_requested : option bool;            (* OpQueue.op_requested *)
  q_running : bool;                     (* OpQueue.op_in_progress *)
  q_last : option (load_result * bool); (* OpQueue.last_op_result *)
  scheduled : bool;                     (* scheduled_switch *)
  version : nat;                        (* vfs_config_version *)
  progress_version : nat;               (* vfs_progress_config_version *)
  syncing : bool;                       (* vfs_sync_in_progress *)
  synced_once : bool;
  workers : list bool;                  (* package-loading closures running in the pool *)
  l_inbox : list lmsg;                  (* loader: messages not yet processed *)
  l_current : option nat;               (* loader: configuration being loaded *)
  channel : list vmsg;                  (* messages from the loader not yet received *)
  received : list vmsg;                 (* ghost: messages received so far, oldest first *)
  qlog : list qevent                    (* ghost *)
}.

Definition set_vfs v st := mkState v (opened st) (roots st) (packages st) (db_text st) (db_package st) (q_requested st) (q_running st) (q_last st) (scheduled st) (version st) (progress_version st) (syncing st) (synced_once st) (workers st) (l_inbox st) (l_current st) (channel st) (received st) (qlog st).
Definition set_opened o st := mkState (s_vfs st) o (roots st) (packages st) (db_text st) (db_package st) (q_requested st) (q_running st) (q_last st) (scheduled st) (version st) (progress_version st) (syncing st) (synced_once st) (workers st) (l_inbox st) (l_current st) (channel st) (received st) (qlog st).
Definition set_db t p st := mkState (s_vfs st) (opened st) (roots st) (packages st) t p (q_requested st) (q_running st) (q_last st) (scheduled st) (version st) (progress_version st) (syncing st) (synced_once st) (workers st) (l_inbox st) (l_current st) (channel st) (received st) (qlog st).
Definition set_queue req run last wk log st := mkState (s_vfs st) (opened st) (roots st) (packages st) (db_text st) (db_package st) req run last (scheduled st) (version st) (progress_version st) (syncing st) (synced_once st) wk (l_inbox st) (l_current st) (channel st) (received st) log.
Definition set_scheduled b st := mkState (s_vfs st) (opened st) (roots st) (packages st) (db_text st) (db_package st) (q_requested st) (q_running st) (q_last st) b (version st) (progress_version st) (syncing st) (synced_once st) (workers st) (l_inbox st) (l_current st) (channel st) (received st) (qlog st).
Definition set_roots r pk v st := mkState (s_vfs st) (opened st) r pk (db_text st) (db_package st) (q_requested st) (q_running st) (q_last st) (scheduled st) v (progress_version st) (syncing st) (synced_once st) (workers st) (l_inbox st) (l_current st) (channel st) (received st) (qlog st).
Definition set_progress pv sy so st := mkState (s_vfs st) (opened st) (roots st) (packages st) (db_text st) (db_package st) (q_requested st) (q_running st) (q_last st) (scheduled st) (version st) pv sy so (workers st) (l_inbox st) (l_current st) (channel st) (received st) (qlog st).
Definition set_loader ib cur ch rc st := mkState (s_vfs st) (opened st) (roots st) (packages st) (db_text st) (db_package st) (q_requested st) (q_running st) (q_last st) (scheduled st) (version st) (progress_version st) (syncing st) (synced_once st) (workers st) ib cur ch rc (qlog st).

(** * The reload queue, op_queue.rs:51-70 *)
Definition request_op (force : bool) (st : state) : state :=
  set_queue (Some force) (q_running st) (q_last st) (workers st) (qlog st ++ [QRequest force]) st.
(** should_start_op followed by load_aptos_packages_from_fs (main_loop.rs:255-259, reload.rs:118-157) *)
Definition start_op (st : state) : state :=
  if q_running st then st
  else match q_requested st with
       | Some force => set_queue None true (q_last st) (workers st ++ [force]) (qlog st ++ [QStart force]) st
       | None => set_queue None false (q_last st) (workers st) (qlog st) st
       end.
(** op_completed: assert!(op_in_progress) *)
Definition op_completed (r : load_result) (force : bool) (wk : list bool) (st : state) : res state :=
  if q_running st then Ok (set_queue (q_requested st) false (Some (r, force)) wk (qlog st ++ [QEnd]) st) else Panic.

(** reload.rs:57-61 *)
Definition is_project_fully_loaded (st : state) : bool :=
  negb (syncing st) && negb (q_running st) && (version st <=? progress_version st).

(** reload.rs:160-233 *)
Definition switch_workspaces (st : state) : state :=
  match q_last st with
  | None => st
  | Some (r, _) =>
      if lr_error r && negb (match packages st with [] => true | _ => false end) then st
      else
        let v := S (version st) in
        set_loader (l_inbox st ++ [LConfig v]) (l_current st) (channel st) (received st) (set_roots (lr_roots r) (lr_roots r) v st)
  end.

(** * Applying file changes *)
(** is_manifest_file, reload.rs:376-382: the last component is "Move.toml" *)
Definition is_manifest_file (p : path) : bool :=
  match parent p with
  | Some d => text_eqb (skipn (S (length d)) p) (str "Move.toml")
  | None => text_eqb p (str "Move.toml")
  end.
(** file_changes.rs:66-77, 117-121 *)
Definition is_structural (e : path * change) : bool :=
  match snd e with
  | Create _ | Delete => true
  | Modify _ => is_manifest_file (fst e)
  end.
Definition change_text (c : change) : option text :=
  match c with Create b | Modify b => text_of_bytes b | Delete => None end.

(** inputs.rs:125-160 [replace_package_roots] after the partition of the existing files *)
Definition package_ids (rs : list path) (files : list path) : list (path * nat) := map (fun p => (p, classify rs p)) files.

(** change.rs:81-94: the loop over changed files; [file_package_id] panics for a file without a package *)
Fixpoint apply_texts (replacing : bool) (pkg : list (path * nat)) (cs : list (path * change)) (db : list (path * text)) : res (list (path * text)) :=
  match cs with
  | [] => Ok db
  | (p, c) :: cs' =>
      let t := match change_text c with Some t => t | None => [] end in
      if replacing && negb (match aget pkg p with Some _ => true | None => false end) then Panic
      else apply_texts replacing pkg cs' (aset db p t)
  end.

(** file_changes.rs:16-43 *)
Definition process_pending_file_changes (st : state) : res state :=
  let cs := v_changes (s_vfs st) in
  match cs with
  | [] => Ok st
  | _ =>
      let st1 := set_vfs (mkVfs (v_data (s_vfs st)) []) st in
      let structural := existsb is_structural cs in
      let pkg := if structural then package_ids (roots st1) (v_files (s_vfs st1)) else db_package st1 in
      bind (apply_texts structural pkg cs (db_text st1)) (fun db =>
        let st2 := set_db db pkg st1 in
        Ok (if structural then request_op true st2 else st2))
  end.

(** main_loop.rs:234-262 *)
Definition after_handle_event (st : state) : res state :=
  bind (if syncing st then Ok st
        else process_pending_file_changes (if scheduled st then switch_workspaces (set_scheduled false st) else st))
       (fun st1 => Ok (start_op st1)).

(** * Handlers *)
(** main_loop.rs:407-418 *)
Definition load_file (is_changed : bool) (st : state) (f : path * option text) : state :=
  let '(p, c) := f in
  match aget (opened st) p with
  | Some _ => st
  | None => if is_changed || match v_content (s_vfs st) p with None => true | Some _ => false end
            then set_vfs (set_file_contents (s_vfs st) p c) st else st
  end.
(** main_loop.rs:347-405 *)
Definition handle_vfs_msg (st : state) (m : vmsg) : state :=
  let st := set_loader (l_inbox st) (l_current st) (channel st) (received st ++ [m]) st in
  match m with
  | Loaded fs => fold_left (load_file false) fs st
  | Changed fs => fold_left (load_file true) fs st
  | Progress v p =>
      let ended := match p with Finished => true | _ => false end in
      set_progress v (negb ended) (synced_once st || ended) st
  end.
(** main_loop.rs:210-217: a turn receives at least one message and then whatever else has arrived *)
Fixpoint handle_vfs_msgs (n : nat) (st : state) : state :=
  match n, channel st with
  | S n', m :: ch => handle_vfs_msgs n' (handle_vfs_msg (set_loader (l_inbox st) (l_current st) ch (received st) st) m)
  | _, _ => st
  end.
(** main_loop.rs:329-338 for each delivered end-of-loading message *)
Fixpoint handle_ends (rs : list load_result) (st : state) : res state :=
  match rs, workers st with
  | r :: rs', force :: wk => bind (op_completed r force wk st) (fun st1 => handle_ends rs' (set_scheduled true st1))
  | _, _ => Ok st
  end.

Inductive event :=
(* main loop turns *)
| EOpen (p : path) (b : text)             (* didOpen *)
| EChange (p : path) (b : text)           (* didChange; b is the document after the edits *)
| EClose (p : path)                       (* didClose *)
| ESave (p : path)                        (* didSave *)
| EWatched (ps : list path)               (* didChangeWatchedFiles *)
| EReload                                 (* changed configuration or workspace folders *)
| EOther                                  (* any other message *)
| ETasks (rs : list load_result)          (* results from the worker pool *)
| EVfs (n : nat)                          (* the next n messages of the loader *)
(* steps of the loader thread *)
| LStart                                  (* takes a configuration *)
| LRead (c : option text)                 (* re-reads an invalidated file *)
| LLoaded (fs : list (path * option text))
| LProgress
| LFinish
| LWatch (fs : list (path * option text)). (* file watcher *)

Definition emit (m : vmsg) (st : state) : state := set_loader (l_inbox st) (l_current st) (channel st ++ [m]) (received st) st.

Definition step (st : state) (e : event) : res state :=
  match e with
  | EOpen p b =>  (* notification.rs:48-76 *)
      after_handle_event (set_vfs (set_file_contents (s_vfs st) p (Some b)) (set_opened (aset (opened st) p b) st))
  | EChange p b =>  (* notification.rs:78-105 *)
      after_handle_event
        (match aget (opened st) p with
         | None => st
         | Some old => if text_eqb old b then st
                       else set_vfs (set_file_contents (s_vfs st) p (Some b)) (set_opened (aset (opened st) p b) st)
         end)
  | EClose p =>  (* notification.rs:107-125 *)
      after_handle_event (set_loader (l_inbox st ++ [LInvalidate p]) (l_current st) (channel st) (received st) (set_opened (adel (opened st) p) st))
  | ESave p => after_handle_event (if is_manifest_file p then request_op false st else st)
  | EWatched ps => after_handle_event (set_loader (l_inbox st ++ map LInvalidate ps) (l_current st) (channel st) (received st) st)
  | EReload => after_handle_event (request_op false st)
  | EOther => after_handle_event st
  | ETasks rs => bind (handle_ends rs st) after_handle_event
  | EVfs n => after_handle_event (handle_vfs_msgs n st)
  | LStart =>
      match l_current st, l_inbox st with
      | None, LConfig v :: ib => Ok (emit (Progress v Started) (set_loader ib (Some v) (channel st) (received st) st))
      | _, _ => Ok st
      end
  | LRead c =>
      match l_current st, l_inbox st with
      | None, LInvalidate p :: ib => Ok (emit (Changed [(p, c)]) (set_loader ib None (channel st) (received st) st))
      | _, _ => Ok st
      end
  | LLoaded fs => match l_current st with Some _ => Ok (emit (Loaded fs) st) | None => Ok st end
  | LProgress => match l_current st with Some v => Ok (emit (Progress v InProgress) st) | None => Ok st end
  | LFinish =>
      match l_current st with
      | Some v => Ok (emit (Progress v Finished) (set_loader (l_inbox st) None (channel st) (received st) st))
      | None => Ok st
      end
  | LWatch fs => Ok (emit (Changed fs) st)
  end.

(** main_loop.rs:120-136: the state when the loop is entered (GlobalState::new, then the start-up reload) *)
Definition fresh : state := mkState (mkVfs [] []) [] [] [] [] [] None false None false 0 0 false false [] [] None [] [] [].
Definition initial : state := start_op (request_op false fresh).

Fixpoint run (st : state) (es : list event) : res state :=
  match es with
  | [] => Ok st
  | e :: es' => bind (step st e) (fun st' => run st' es')
  end.
