(** Model of crates/syntax/src/parse/token_set.rs. A [TokenSet] is its [u128]; N bounded by construction. *)
From Verif Require Import Base SyntaxKind.
Open Scope N_scope.

Definition token_set := N.

(** The shift in [mask] overflows for discriminants over 127: a panic with overflow checks (debug
    profile), a shift by the amount modulo 128 without (release profile). *)
Inductive profile := Debug | Release.

(** token_set.rs:103-105 [mask] *)
Definition mask (p : profile) (k : kind) : res N :=
  if disc k <? 128 then Ok (N.shiftl 1 (disc k))
  else match p with Debug => Panic | Release => Ok (N.shiftl 1 (disc k mod 128)) end.

(** token_set.rs:68-76 [new]: the while loop *)
Fixpoint new_loop (p : profile) (acc : N) (ks : list kind) : res token_set :=
  match ks with
  | [] => Ok acc
  | k :: ks' => bind (mask p k) (fun m => new_loop p (N.lor acc m) ks')
  end.
Definition new (p : profile) (ks : list kind) : res token_set := new_loop p 0 ks.

(** token_set.rs:66 [EMPTY], 78-80 [union], 82-84 [sub] ([!] is complement in 128 bits), 86-88 [is_empty] *)
Definition EMPTY : token_set := 0.
Definition union (a b : token_set) : token_set := N.lor a b.
Definition sub (a b : token_set) : token_set := N.land a (N.lnot b 128).
Definition is_empty (a : token_set) : bool := a =? 0.

(** token_set.rs:90-92 [contains] *)
Definition contains (p : profile) (a : token_set) (k : kind) : res bool :=
  bind (mask p k) (fun m => Ok (negb (N.land a m =? 0))).

(** token_set.rs:94-99 [kinds]: filter over discriminants 0..128 *)
Definition kinds (p : profile) (a : token_set) : list kind :=
  filter (fun k => match contains p a k with Ok b => b | Panic => false end) (firstn 128 all_kinds).

(** Expressions building token sets: [ts!], [TokenSet::new], [From<SyntaxKind>], [+], [|] with a kind on
    either side (token_set.rs:19-63), [union], [sub]. *)
Inductive ts_expr :=
| TEmpty | TNew (ks : list kind) | TOf (k : kind) | TUnion (a b : ts_expr) | TSub (a b : ts_expr)
| TOrKind (a : ts_expr) (k : kind) | TKindOrKind (a b : kind) | TKindOr (k : kind) (a : ts_expr).

Fixpoint eval (p : profile) (e : ts_expr) : res token_set :=
  match e with
  | TEmpty => Ok EMPTY
  | TNew ks => new p ks
  | TOf k => new p [k]
  | TUnion a b => bind (eval p a) (fun x => bind (eval p b) (fun y => Ok (union x y)))
  | TSub a b => bind (eval p a) (fun x => bind (eval p b) (fun y => Ok (sub x y)))
  | TOrKind a k => bind (eval p a) (fun x => bind (new p [k]) (fun y => Ok (union x y)))
  | TKindOrKind a b => new p [a; b]
  | TKindOr k a => bind (new p [k]) (fun x => bind (eval p a) (fun y => Ok (union x y)))
  end.
