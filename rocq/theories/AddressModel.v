(** Model of account addresses: crates/lang/src/nameres/address.rs:13-183 and crates/lang/src/hir_db.rs:230-261.
    Strings are lists of UTF-8 bytes. A package's [AddressMap] is a list of pairs with distinct names in the
    iteration order of its map; the table of all packages is built by repeated insertion as in the code. *)
From Coq Require Import String Ascii.
From Verif Require Import Base.

(** string literals *)
Definition str (s : string) : text := map N_of_ascii (list_ascii_of_string s).

Definition text_eq_dec : forall a b : text, {a = b} + {a <> b} := list_eq_dec N.eq_dec.
Definition text_eqb (a b : text) : bool := if text_eq_dec a b then true else false.

(** address.rs:13-17, 161-183 *)
Inductive address := Named (name : text) | Value (value : text).

Definition address_eqb (a b : address) : bool :=
  match a, b with
  | Named x, Named y => text_eqb x y
  | Value x, Value y => text_eqb x y
  | _, _ => false
  end.

(** hir_db.rs:230 *)
Definition framework_addresses : list text := [str "std"; str "aptos_std"; str "aptos_framework"; str "aptos_token"].

Definition addr_map := list (text * text).
(** HashMap::insert and get *)
Fixpoint map_get (m : addr_map) (k : text) : option text :=
  match m with
  | [] => None
  | (k', v) :: m' => if text_eqb k' k then Some v else map_get m' k
  end.
Definition map_insert (m : addr_map) (kv : text * text) : addr_map := kv :: filter (fun e => negb (text_eqb (fst e) (fst kv))) m.

(** hir_db.rs:247-261: packages in the order of [all_package_ids] *)
Definition named_addresses_tracked (pkgs : list addr_map) : addr_map :=
  fold_left (fun m p => fold_left map_insert p m) pkgs [].

(** hir_db.rs:232-245 *)
Definition named_addresses (pkgs : list addr_map) : addr_map :=
  fold_left (fun m name => match map_get m name with Some _ => m | None => map_insert m (name, str "0x1") end)
            framework_addresses (named_addresses_tracked pkgs).

(** address.rs:110-125 *)
Definition resolve_named_address (pkgs : list addr_map) (name : text) : option text :=
  if existsb (text_eqb name) framework_addresses then Some (str "0x1") else map_get (named_addresses pkgs) name.

(** address.rs:28-33 *)
Definition resolve_to_numeric_address (pkgs : list addr_map) (a : address) : option text :=
  match a with
  | Named n => resolve_named_address pkgs n
  | Value v => Some v
  end.

(** address.rs:133-135 *)
Definition is_underscore (v : text) : bool := text_eqb v (str "_").

(** str::trim_start_matches("0") *)
Fixpoint trim_zeros (t : text) : text :=
  match t with
  | c :: t' => if N.eqb c 48 then trim_zeros t' else t
  | [] => []
  end.

(** address.rs:139-154 *)
Definition short (t : text) : text :=
  match t with
  | c :: rest =>
      if N.eqb c 48 then
        let trimmed := match rest with
                       | x :: rest' => if N.eqb x 120 then rest' else rest
                       | [] => rest
                       end in
        str "0x" ++ match trim_zeros trimmed with [] => str "0" | d => d end
      else t
  | [] => t
  end.

(** address.rs:56-90 *)
Definition equals_to (pkgs : list addr_map) (self candidate : address) (is_completion : bool) : bool :=
  if address_eqb self candidate then true
  else
    let same_values :=
      match resolve_to_numeric_address pkgs self, resolve_to_numeric_address pkgs candidate with
      | Some s, Some c => negb (is_underscore s) && negb (is_underscore c) && text_eqb (short s) (short c)
      | _, _ => false
      end in
    if same_values && is_completion then
      match self, candidate with
      | Named l, Named r => text_eqb l r
      | _, _ => same_values
      end
    else same_values.
