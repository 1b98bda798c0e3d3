(** Model of package loading: crates/project-model/src/aptos_package/load_from_fs.rs, dep_graph.rs and the dependency
    queries of crates/lang/src/hir_db.rs. Paths, directories, names, file ids are natural numbers: the code only compares them. The file
    system is a finite table that does not change while packages are loaded. *)
From Verif Require Import Base.

Definition mpath := nat.
Definition dir := nat.
Definition name := nat.

Fixpoint get {A} (l : list (nat * A)) (k : nat) : option A :=
  match l with
  | [] => None
  | (x, v) :: l' => if x =? k then Some v else get l' k
  end.
(** HashMap::insert *)
Fixpoint put {A} (l : list (nat * A)) (k : nat) (v : A) : list (nat * A) :=
  match l with
  | [] => [(k, v)]
  | (x, w) :: l' => if x =? k then (k, v) :: l' else (x, w) :: put l' k v
  end.
(** HashMap::extend *)
Definition extend {A} (l m : list (nat * A)) : list (nat * A) := fold_left (fun acc e => put acc (fst e) (snd e)) m l.
Definition mem (k : nat) (l : list nat) : bool := existsb (Nat.eqb k) l.

(** aptos_package.rs:51-55 *)
Inductive kind := Local | Git.

(** move_toml.rs:126-184: a declared dependency with its name, where it comes from and the directory that
    [dep_root] gives for it ([None]: a git dependency without rev or without a home directory) *)
Record tdep := mkDep { d_name : name; d_from : kind; d_root : option dir }.
(** move_toml.rs:12-20: [t_deps] is declared_dependencies (l101-103), [t_addrs] declared_named_addresses (l105-111) *)
Record toml := mkToml { t_name : option name; t_deps : list tdep; t_addrs : list (name * name) }.
(** the Move.toml files ([None]: not readable or not parsable), and for directories the Move.toml in them *)
Record fs := mkFs { manifests : list (mpath * option toml); tomls : list (dir * mpath) }.

(** load_from_fs.rs:286-291 read_manifest_from_fs *)
Definition read_manifest (f : fs) (p : mpath) : option toml :=
  match get (manifests f) p with Some (Some t) => Some t | _ => None end.
(** load_from_fs.rs:272-284 try_find_move_toml_at_root *)
Definition find_toml (f : fs) (d : dir) : option mpath := get (tomls f) d.

(** load_from_fs.rs:17-25 *)
Record entry := mkEntry { en_name : option name; en_kind : kind; en_deps : list (mpath * kind); en_resolve : bool; en_missing : list name; en_addrs : list (name * name) }.

(** load_from_fs.rs:230-236: a local dependency of a git package is a git dependency *)
Definition dep_kind (outer from : kind) : kind :=
  match from, outer with Git, _ => Git | Local, Git => Git | Local, Local => Local end.
(** load_from_fs.rs:213-240: the loop over the declared dependencies *)
Fixpoint declared (f : fs) (outer : kind) (ds : list tdep) : list (mpath * kind) * list name :=
  match ds with
  | [] => ([], [])
  | d :: ds' =>
      let (deps, missing) := declared f outer ds' in
      match d_root d with
      | None => (deps, missing)
      | Some r =>
          match find_toml f r with
          | Some p => ((p, dep_kind outer (d_from d)) :: deps, missing)
          | None => (deps, d_name d :: missing)
          end
      end
  end.

(** load_from_fs.rs:190-270 collect_reachable_manifests; [None]: the loop did not stop within the fuel *)
Fixpoint reach_loop (fuel : nat) (f : fs) (queue : list (mpath * kind * bool)) (res : list (mpath * option entry)) : option (list (mpath * option entry)) :=
  match fuel with
  | O => None
  | S n =>
      match queue with
      | [] => Some res
      | (p, k, resolve) :: queue' =>
          match get res p with
          | Some _ => reach_loop n f queue' res
          | None =>
              match read_manifest f p with
              | None => reach_loop n f queue' (put res p None)
              | Some t =>
                  if resolve then
                    let (deps, missing) := declared f k (t_deps t) in
                    reach_loop n f (queue' ++ map (fun d => (fst d, snd d, true)) deps) (put res p (Some (mkEntry (t_name t) k deps true missing (t_addrs t))))
                  else reach_loop n f queue' (put res p (Some (mkEntry (t_name t) k [] false [] (t_addrs t))))
              end
          end
      end
  end.
(** enough steps for every file system, see reach_terminates *)
Definition all_deps (f : fs) : nat := fold_right (fun e n => match snd e with Some t => length (t_deps t) + n | None => n end) 0 (manifests f).
Definition collect_reachable (f : fs) (ws : mpath * bool) : option (list (mpath * option entry)) :=
  reach_loop (S (S (all_deps f))) f [(fst ws, Local, snd ws)] [].

(** load_from_fs.rs:144-188 collect_deps_transitively *)
Fixpoint deps_loop (fuel : nat) (es : list (mpath * entry)) (queue : list (mpath * kind)) (seen : list mpath) (names : list name) (res : list (mpath * kind)) : option (list (mpath * kind)) :=
  match fuel with
  | O => None
  | S n =>
      match queue with
      | [] => Some res
      | d :: queue' =>
          if mem (fst d) seen then deps_loop n es queue' seen names res
          else
            match get es (fst d) with
            | Some e =>
                match en_name e with
                | Some x =>
                    if mem x names then deps_loop n es queue' (fst d :: seen) names res
                    else deps_loop n es (queue' ++ en_deps e) (fst d :: seen) (x :: names) (res ++ [d])
                | None => deps_loop n es (queue' ++ en_deps e) (fst d :: seen) names (res ++ [d])
                end
            | None => deps_loop n es queue' (fst d :: seen) names (res ++ [d])
            end
      end
  end.
Definition entry_deps (es : list (mpath * entry)) : nat := fold_right (fun e n => length (en_deps (snd e)) + n) 0 es.
Definition collect_deps (es : list (mpath * entry)) (start : list (mpath * kind)) : option (list (mpath * kind)) :=
  deps_loop (S (length start + entry_deps es)) es start [] [] [].

(** aptos_package.rs:57-66: the dependencies stay manifest paths here; AptosPackage::new (l95-98) keeps the directories *)
Record package := mkPackage { pk_name : option name; pk_manifest : mpath; pk_kind : kind; pk_deps : list (mpath * kind); pk_resolve : bool; pk_addrs : list (name * name); pk_missing : list name }.
Inductive loaded := Package (p : package) | ParseError (p : mpath).

(** load_from_fs.rs:81-87: the manifests of all workspace folders; a later one replaces an earlier one *)
Fixpoint all_reachable (f : fs) (ws : list (mpath * bool)) (acc : list (mpath * option entry)) : option (list (mpath * option entry)) :=
  match ws with
  | [] => Some acc
  | w :: ws' => match collect_reachable f w with Some r => all_reachable f ws' (extend acc r) | None => None end
  end.
(** load_from_fs.rs:89-95 *)
Definition valid_entries (l : list (mpath * option entry)) : list (mpath * entry) :=
  flat_map (fun e => match snd e with Some x => [(fst e, x)] | None => [] end) l.
(** load_from_fs.rs:115-142 collect_package_from_manifest_entry *)
Definition package_from_entry (p : mpath) (e : entry) (es : list (mpath * entry)) : option loaded :=
  match collect_deps es (en_deps e) with
  | Some deps => Some (Package (mkPackage (en_name e) p (en_kind e) deps (en_resolve e) (en_addrs e) (en_missing e)))
  | None => None
  end.
Fixpoint packages_from (l : list (mpath * option entry)) (es : list (mpath * entry)) : option (list loaded) :=
  match l with
  | [] => Some []
  | (p, o) :: l' =>
      match (match o with None => Some (ParseError p) | Some e => package_from_entry p e es end), packages_from l' es with
      | Some x, Some xs => Some (x :: xs)
      | _, _ => None
      end
  end.
(** load_from_fs.rs:81-113 load_aptos_packages. The code goes through a HashMap in no fixed order; here it is the order of insertion *)
Definition load_packages (f : fs) (ws : list (mpath * bool)) : option (list loaded) :=
  match all_reachable f ws [] with
  | Some l => packages_from l (valid_entries l)
  | None => None
  end.
(** load_from_fs.rs:40-48 *)
Definition valid_packages (l : list loaded) : list package := flat_map (fun x => match x with Package p => [p] | ParseError _ => [] end) l.

(** dep_graph.rs: the package graph. [load] is the virtual file system: the id of a file that can be read and is not
    excluded; [root] is the directory of a manifest *)
Definition file_id := nat.
Record metadata := mkMeta { md_name : option name; md_deps : list file_id; md_resolve : bool; md_addrs : list (name * name); md_missing : list name }.
(** dep_graph.rs:49-61 dep_graph_entry *)
Fixpoint dep_ids (f : fs) (root : mpath -> dir) (load : mpath -> option file_id) (ds : list (mpath * kind)) : option (list file_id) :=
  match ds with
  | [] => Some []
  | d :: ds' =>
      match find_toml f (root (fst d)) with
      | Some p => match load p, dep_ids f root load ds' with Some i, Some is => Some (i :: is) | _, _ => None end
      | None => None
      end
  end.
(** dep_graph.rs:25-46 collect *)
Fixpoint collect_graph (f : fs) (root : mpath -> dir) (load : mpath -> option file_id) (ps : list package) (acc : list (file_id * metadata)) : option (list (file_id * metadata)) :=
  match ps with
  | [] => Some acc
  | p :: ps' =>
      match load (pk_manifest p), dep_ids f root load (pk_deps p) with
      | Some i, Some is => collect_graph f root load ps' (put acc i (mkMeta (pk_name p) is (pk_resolve p) (pk_addrs p) (pk_missing p)))
      | _, _ => None
      end
  end.

(** hir_db.rs: the database side. A package id has a manifest file ([None] when there is none), a file belongs
    to a package, the metadata of a manifest is set from the graph; missing keys panic
    (base-db/src/inputs.rs:158-163, 173-181) *)
Definition pkg := nat.
Record hir := mkHir { h_manifest : pkg -> option file_id; h_package : list (file_id * pkg); h_meta : list (file_id * metadata); h_all : list pkg }.
(** base-db/src/source_db.rs:73-81 metadata_for_package_id *)
Definition metadata_for (h : hir) (p : pkg) : res (option metadata) :=
  match h_manifest h p with
  | None => Ok None
  | Some m => match get (h_meta h) m with Some d => Ok (Some d) | None => Panic end
  end.
Fixpoint packages_of (h : hir) (is : list file_id) : res (list pkg) :=
  match is with
  | [] => Ok []
  | i :: is' => match get (h_package h) i with Some p => bind (packages_of h is') (fun ps => Ok (p :: ps)) | None => Panic end
  end.
(** hir_db.rs:185-202 transitive_dep_package_ids *)
Definition dep_packages (h : hir) (p : pkg) : res (list pkg) :=
  bind (metadata_for h p) (fun m =>
    match m with
    | None => Ok [p]
    | Some d => bind (packages_of h (md_deps d)) (fun ps => Ok (p :: ps))
    end).
(** hir_db.rs:204-213 missing_dependencies, as a set *)
Fixpoint missing_of (h : hir) (ps : list pkg) : res (list name) :=
  match ps with
  | [] => Ok []
  | p :: ps' =>
      bind (metadata_for h p) (fun m => bind (missing_of h ps') (fun r =>
        Ok (match m with Some d => md_missing d ++ r | None => r end)))
  end.
Definition missing_dependencies (h : hir) (p : pkg) : res (list name) := bind (dep_packages h p) (missing_of h).
(** hir_db.rs:215-228 reverse_transitive_dep_package_ids *)
Fixpoint rev_loop (h : hir) (of : pkg) (all : list pkg) : res (list pkg) :=
  match all with
  | [] => Ok []
  | d :: all' => bind (dep_packages h d) (fun ds => bind (rev_loop h of all') (fun r => Ok (if mem of ds then d :: r else r)))
  end.
Definition reverse_deps (h : hir) (of : pkg) : res (list pkg) := bind (rev_loop h of (h_all h)) (fun r => Ok (of :: r)).
