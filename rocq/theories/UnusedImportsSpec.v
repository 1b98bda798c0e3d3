(** What it means that an import is used; stated without the functions of UnusedImportsModel.v (only its data
    types: statements, paths, worlds). *)
From Coq Require Import String.
From Verif Require Import Base AddressModel ItemScopeModel UnusedImportsModel.
Close Scope string_scope. Close Scope N_scope. Open Scope nat_scope. Open Scope list_scope.

(** ** What a use statement imports *)
Definition shown (alias : option text) (x n : text) : Prop := alias = Some n \/ (alias = None /\ n = x).
(** the beginning of a path of a use statement: an address, then further segments, ending in module [m] *)
Definition module_path (q : upath) (m : text) : Prop := exists a r, q = SName m :: r ++ [a] /\ a <> SNone.
(** `use A::m;`, `use A::m::Self;`, `use A::m::x;` and `use A::m::{Self, x}`, each with or without `as n` *)
Inductive imports (s : speck) : option nat -> text -> item_type -> Prop :=
| i_module m a n : sp_group s = None -> sp_path s = Some [SName m; a] -> a <> SNone -> shown (sp_alias s) m n -> imports s None n TModule
| i_self m r n : sp_group s = None -> r <> [] -> sp_path s = Some (SName SELF :: SName m :: r) -> shown (sp_alias s) m n -> imports s None n TSelf
| i_item x m r n : sp_group s = None -> r <> [] -> sp_path s = Some (SName x :: SName m :: r) -> x <> SELF -> shown (sp_alias s) x n -> imports s None n TItem
| i_group_self l j c m q r n : sp_group s = Some l -> nth_error l j = Some c -> sp_path s = Some (SName m :: q) -> cs_path c = Some (SName SELF :: r) -> shown (cs_alias c) m n -> imports s (Some j) n TSelf
| i_group_item l j c m a q x r n : sp_group s = Some l -> nth_error l j = Some c -> sp_path s = Some (SName m :: a :: q) -> (q = [] -> a <> SNone) -> cs_path c = Some (SName x :: r) -> x <> SELF -> shown (cs_alias c) x n -> imports s (Some j) n TItem.
(** import [u] is written in scope [o] *)
Definition declares (w : world) (o : nat) (u : use_item) : Prop :=
  exists i s sp, nth_error (w_stmts w o) i = Some s /\ st_speck s = Some sp /\ u_scope u = st_scope s /\
    exists j, u_loc u = mkLoc o i j /\ imports sp j (u_name u) (u_type u).
(** a statement that can be read: a path (or the path in front of a group) ending in a name *)
Definition readable (s : use_stmt) : Prop :=
  exists sp, st_speck s = Some sp /\
    (sp_group sp <> None \/ exists x r, sp_path sp = Some (SName x :: r) /\ forall a, r = [a] -> a <> SNone).

(** ** Which import a path uses *)
(** a module shares its imports with its specifications *)
Definition shares (w : world) (o o' : nat) : Prop := o = o' \/ In o' (w_specs w o) \/ w_module w o = Some o'.
(** the first name of a path, as written: `x` in `x`, `x::y` and `x::y::z` *)
Definition first_name (p : upath) : option text := match rev p with SName x :: _ => Some x | _ => None end.
(** [u] can be what the first name of [p] stands for: a path of one segment names an item, a longer one a
    module or an enum *)
Definition can_mean (p : upath) (u : use_item) : Prop :=
  first_name p = Some (u_name u) /\ (length p = 1 -> u_type u = TItem).
(** seen from main code: main imports; from tests: those and test imports; likewise for specifications *)
Definition visible_in (s : item_scope) (u : use_item) : Prop := u_scope u = ScMain \/ u_scope u = s.
Definition candidate (w : world) (p : use_path) (o : nat) (u : use_item) : Prop :=
  (exists o', shares w o o' /\ declares w o' u) /\ can_mean (po_path p) u /\ visible_in (po_scope p) u.
(** the innermost scope that has a candidate decides; there a test (verify) import goes before a main one *)
Definition uses (w : world) (p : use_path) (u : use_item) : Prop :=
  exists inner o outer, po_owners p = inner ++ o :: outer /\ candidate w p o u /\
    (forall i v, In i inner -> ~ candidate w p i v) /\
    forall v, candidate w p o v -> v = u \/ (u_scope u <> ScMain /\ v.(u_scope) = ScMain).
(** the world is consistent: specifications and modules point to each other *)
Definition paired (w : world) : Prop := forall m s, In s (w_specs w m) <-> w_module w s = Some m.
