(** Model of the partition of files into package roots: crates/project-model/src/project_folders.rs:14-103 and the
    external crate [vfs] (file_set.rs: FileSetConfig), which is not part of the repository and is re-modelled from its
    published source. Paths are the bytes of absolute Unix paths. *)
From Verif Require Import Base AddressModel.

Definition path := text.
Definition SLASH : byte := 47%N.

(** VfsPath::parent: everything before the last slash; [None] when there is none *)
Fixpoint parent (p : path) : option path :=
  match p with
  | [] => None
  | c :: p' =>
      match parent p' with
      | Some q => Some (c :: q)
      | None => if N.eqb c SLASH then Some [] else None
      end
  end.

(** lexicographic order of byte strings, and of pairs with their index (derived Ord of tuples) *)
Fixpoint bytes_compare (a b : text) : comparison :=
  match a, b with
  | [], [] => Eq
  | [], _ => Lt
  | _, [] => Gt
  | x :: a', y :: b' => match N.compare x y with Eq => bytes_compare a' b' | c => c end
  end.
Definition entry := (path * nat)%type.
Definition entry_leb (a b : entry) : bool :=
  match bytes_compare (fst a) (fst b) with
  | Lt => true
  | Eq => snd a <=? snd b
  | Gt => false
  end.

Fixpoint insert_entry (e : entry) (l : list entry) : list entry :=
  match l with
  | [] => [e]
  | x :: l' => if entry_leb e x then e :: l else x :: insert_entry e l'
  end.
Definition sort_entries (l : list entry) : list entry := fold_right insert_entry [] l.

(** Vec::dedup_by on equal keys: the first of a run stays *)
Fixpoint dedup_entries (l : list entry) : list entry :=
  match l with
  | [] => []
  | e :: l' =>
      match dedup_entries l' with
      | [] => [e]
      | x :: r => if text_eqb (fst e) (fst x) then e :: r else e :: x :: r
      end
  end.

(** FileSetConfigBuilder::build: root i is the directory of package i (project_folders.rs:90-91). The
    path tag byte that precedes every key is the same for all real paths and is left out. *)
Fixpoint number_from (i : nat) (l : list path) : list entry :=
  match l with
  | [] => []
  | r :: l' => (r, i) :: number_from (S i) l'
  end.
Definition build (roots : list path) : list entry := dedup_entries (sort_entries (number_from 0 roots)).

(** the [PrefixOf] automaton accepts the keys that are byte prefixes of the query *)
Fixpoint is_prefix (k p : text) : bool :=
  match k, p with
  | [], _ => true
  | x :: k', y :: p' => N.eqb x y && is_prefix k' p'
  | _ :: _, [] => false
  end.

(** FileSetConfig::classify: the last accepted key in key order; otherwise the extra set *)
Definition classify (roots : list path) (p : path) : nat :=
  let dir := match parent p with Some d => d | None => p end in
  fold_left (fun acc e => if is_prefix (fst e) dir then snd e else acc) (build roots) (length roots).

(** FileSetConfig::partition over the existing files *)
Definition partition (roots : list path) (files : list path) : list (list path) :=
  map (fun i => filter (fun p => Nat.eqb (classify roots p) i) files) (seq 0 (S (length roots))).
