(** Model of the unification table of type inference.

    Source: crates/lang/src/types/unification.rs.

    Simplified: the hash map is an association list in which the first binding of a key counts, so that
    insertion at the front replaces the old binding.  The table is generic in the type of variables and in
    the type of values, as the code is in the type of variables. *)
From Verif Require Import Base.

(** A computation finishes, panics, or does not stop. *)
Inductive out (A : Type) : Type := Done (a : A) | Crash | Loop.
Arguments Done {A} _.
Arguments Crash {A}.
Arguments Loop {A}.
Definition obind {A B} (r : out A) (f : A -> out B) : out B := match r with Done a => f a | Crash => Crash | Loop => Loop end.

Section Table.
Variables (V T : Type) (veq : forall a b : V, {a = b} + {a <> b}) (teq : forall a b : T, {a = b} + {a <> b}).
(** enum TableValue, l12-16 *)
Inductive tval := TVar (v : V) | TValue (t : option T).
Definition mapping := list (V * tval).
(** struct UnificationTable, l18-22 *)
Record table := mkTable { t_map : mapping; t_snaps : list mapping }.
Definition new_table : table := mkTable [] [].
Fixpoint get (v : V) (m : mapping) : option tval :=
  match m with
  | [] => None
  | (k, x) :: m' => if veq v k then Some x else get v m'
  end.
Definition insert (v : V) (x : tval) (m : mapping) : mapping := (v, x) :: m.

(** resolve_to_root_var, l72-78: a while loop; [None] = still running after [fuel] steps *)
Fixpoint root_loop (fuel : nat) (m : mapping) (v : V) : option V :=
  match fuel with
  | 0 => None
  | S f => match get v m with Some (TVar w) => root_loop f m w | _ => Some v end
  end.
(** more steps than there are entries can only be taken on a cycle (proved in UnifyProps) *)
Definition root_var (m : mapping) (v : V) : out V := match root_loop (S (length m)) m v with Some r => Done r | None => Loop end.
(** resolve_to_ty_value, l80-86 *)
Definition ty_value (m : mapping) (v : V) : out (option T) :=
  obind (root_var m v) (fun r => Done (match get r m with Some (TValue t) => t | _ => None end)).
(** unify_var_var, l32-57 *)
Definition unify_var_var (m : mapping) (left right : V) : out mapping :=
  obind (root_var m left) (fun lr => obind (root_var m right) (fun rr =>
  if veq lr rr then Done m
  else obind (ty_value m lr) (fun lt => obind (ty_value m rr) (fun rt =>
    match lt, rt with
    | Some a, Some b => if teq a b then Done (insert rr (TValue (Some a)) (insert lr (TVar rr) m)) else Crash
    | Some a, None => Done (insert rr (TValue (Some a)) (insert lr (TVar rr) m))
    | None, r => Done (insert rr (TValue r) (insert lr (TVar rr) m))
    end)))).
(** unify_var_value, l59-70 *)
Definition unify_var_value (m : mapping) (v : V) (t : T) : out mapping :=
  obind (ty_value m v) (fun old => match old with
    | Some t' => if teq t' t then Done m else Crash
    | None => obind (root_var m v) (fun r => Done (insert r (TValue (Some t)) m))
    end).
(** snapshot, l88-90 *)
Definition snapshot (t : table) : table := mkTable (t_map t) (t_map t :: t_snaps t).
(** rollback, l92-95: [Crash] when there is no snapshot *)
Definition rollback (t : table) : out table := match t_snaps t with m :: s => Done (mkTable m s) | [] => Crash end.
End Table.
Arguments TVar {V T} _.
Arguments TValue {V T} _.
Arguments mkTable {V T} _ _.
Arguments new_table {V T}.
Arguments t_map {V T} _.
Arguments t_snaps {V T} _.
