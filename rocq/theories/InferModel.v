(** Model of the inference context: resolving variables, combining types, frozen contexts.

    Source: crates/lang/src/types/inference.rs:250-327, inference/combine_types.rs:21-345,
    inference/inference_result.rs:33-103, fold.rs:59-117, ty/reference.rs:52-94.

    Simplified: of the context only the mode (msl) and the two unification tables are kept; reported type
    errors and the maps filled by the walker over the syntax tree are left out.  Errors carry no types
    except where the code later reads them.  What the database delivers is a [db] (TyModel).  Recursion
    over values found in the table need not stop, so it takes fuel: [Loop] means that the fuel was not
    enough. *)
From Verif Require Import Base TyModel UnifyModel.

Definition vmap := mapping tyvar ty.
Definition imap := mapping nat ty.
Record ctx := mkCtx { msl : bool; vt : table tyvar ty; it : table nat ty }.
Definition with_vt (c : ctx) (m : vmap) : ctx := mkCtx (msl c) (mkTable m (t_snaps (vt c))) (it c).
Definition with_it (c : ctx) (m : imap) : ctx := mkCtx (msl c) (vt c) (mkTable m (t_snaps (it c))).
Definition vroot (c : ctx) : tyvar -> out tyvar := root_var tyvar ty tyvar_eq_dec (t_map (vt c)).
Definition vvalue (c : ctx) : tyvar -> out (option ty) := ty_value tyvar ty tyvar_eq_dec (t_map (vt c)).
Definition ivalue (c : ctx) : nat -> out (option ty) := ty_value nat ty Nat.eq_dec (t_map (it c)).

(** * Resolving *)
(** resolve_ty_infer, inference.rs:250-268; applied to another type: resolve_ty_infer_shallow, 301-307 *)
Definition resolve_infer (c : ctx) (t : ty) : out ty :=
  match t with
  | IntVar i => obind (ivalue c i) (fun o => Done (match o with Some t => t | None => IntVar i end))
  | Var v => obind (vvalue c v) (fun o => match o with
      | None => Done (Var v)
      | Some (IntVar j) => obind (ivalue c j) (fun o => Done (match o with Some t => t | None => IntVar j end))
      | Some t => Done t
      end)
  | t => Done t
  end.
(** TyVarResolver::fold_ty, fold.rs:70-78 *)
Fixpoint resolve (fuel : nat) (c : ctx) (t : ty) : option ty :=
  match fuel with
  | 0 => None
  | S f => match resolve_infer c t with Done u => deep_fold_opt (resolve f c) u | _ => None end
  end.
(** FullTyVarResolver::fold_ty, fold.rs:97-117 *)
Inductive fallback := FUnknown | FOrigin.
Definition fall (fb : fallback) (t : ty) : ty :=
  match t with
  | Var v => match fb, v_origin v with FOrigin, Some l => TypeParam l | _, _ => Unknown end
  | t => t
  end.
Definition is_infer (t : ty) : bool := match t with Var _ | IntVar _ => true | _ => false end.
Fixpoint fully_resolve (fuel : nat) (fb : fallback) (c : ctx) (t : ty) : option ty :=
  match fuel with
  | 0 => None
  | S f => match resolve_infer c t with
           | Done u => deep_fold_opt (fully_resolve f fb c) (if is_infer t then fall fb u else t)
           | _ => None
           end
  end.

(** * Combining *)
Inductive cerror := EMismatch | EAbility (missing : list ability) | EInvalidArg (t : ty).
Inductive cres := COk | CErr (e : cerror).
(** Result::and *)
Definition cand (a b : cres) : cres := match a with COk => b | CErr e => CErr e end.
Definition is_ok (r : cres) : bool := match r with COk => true | CErr _ => false end.

Section Db.
Variable d : db.
(** ty_contains_ty_var, l199-204 *)
Fixpoint any_root (c : ctx) (vs : list tyvar) (v : tyvar) : out bool :=
  match vs with
  | [] => Done false
  | w :: vs' => obind (vroot c w) (fun r => if tyvar_eq_dec r v then Done true else any_root c vs' v)
  end.
Definition contains_var (c : ctx) (t : ty) (v : tyvar) : out bool := any_root c (ty_vars t) v.
Definition set_value (c : ctx) (v : tyvar) (t : ty) : out ctx :=
  obind (unify_var_value tyvar ty tyvar_eq_dec ty_eq_dec (t_map (vt c)) v t) (fun m => Done (with_vt c m)).
(** the ability check of unify_ty_var, l160-178 *)
Definition ability_check (c : ctx) (v : tyvar) (t : ty) : cres :=
  match v_origin v with
  | None => COk
  | Some l => match param_bounds d l, abilities d t with
              | Some bounds, Some has =>
                  if msl c then COk
                  else match filter (fun a => negb (existsb (fun b => if ability_eq_dec a b then true else false) has)) bounds with
                       | [] => COk
                       | missing => CErr (EAbility missing)
                       end
              | _, _ => COk
              end
  end.
(** unify_ty_var, l158-197 *)
Definition unify_ty_var (c : ctx) (v : tyvar) (t : ty) : out (ctx * cres) :=
  let res := ability_check c v t in
  let bind_value :=
    obind (vroot c v) (fun r => obind (contains_var c t r) (fun b =>
      if b then obind (set_value c r Unknown) (fun c' => Done (c', COk))
      else obind (set_value c r t) (fun c' => Done (c', res)))) in
  match t with
  | Var w => obind (unify_var_var tyvar ty tyvar_eq_dec ty_eq_dec (t_map (vt c)) v w) (fun m => Done (with_vt c m, res))
  | Reference _ _ => match v_origin v with Some _ => Done (c, CErr (EInvalidArg t)) | None => bind_value end
  | _ => bind_value
  end.
(** unify_int_var, l206-223 *)
Definition unify_int_var (c : ctx) (i : nat) (t : ty) : out (ctx * cres) :=
  match t with
  | IntVar j => obind (unify_var_var nat ty Nat.eq_dec ty_eq_dec (t_map (it c)) i j) (fun m => Done (with_it c m, COk))
  | Integer _ => obind (unify_var_value nat ty Nat.eq_dec ty_eq_dec (t_map (it c)) i t) (fun m => Done (with_it c m, COk))
  | Unknown => Done (c, COk)
  | _ => Done (c, CErr EMismatch)
  end.
(** unify_ty_vars_with_unknown, l143-156: the results are ignored *)
Fixpoint unify_with_unknown (c : ctx) (vs : list tyvar) : out ctx :=
  match vs with
  | [] => Done c
  | v :: vs' => obind (unify_ty_var c v Unknown) (fun '(c', _) => unify_with_unknown c' vs')
  end.

Section Rec.
(** the recursive calls *)
Variable combine : ctx -> ty -> ty -> out (ctx * cres).
(** combine_ty_pairs, l294-301: over the zipped lists *)
Fixpoint combine_pairs (c : ctx) (acc : cres) (l r : list ty) : out (ctx * cres) :=
  match l, r with
  | x :: l', y :: r' => obind (combine c x y) (fun '(c', res) => combine_pairs c' (cand acc res) l' r')
  | _, _ => Done (c, acc)
  end.
(** combine_ty_callables, l243-257 *)
Definition combine_callables (c : ctx) (ps : list ty) (r : ty) (ps' : list ty) (r' : ty) : out (ctx * cres) :=
  obind (combine_pairs c COk ps ps') (fun '(c', res) =>
    match res with CErr e => Done (c', CErr e) | COk => combine c' (unwrap_all_refs r) (unwrap_all_refs r') end).
(** combine_new_type_struct_with_lambda, l259-272: the wrapped function type of an expected struct *)
Definition expected_lambda (l : loc) (keys : list loc) (vals : list ty) : option (list ty * ty) :=
  match wrapped_lambda d l with
  | Some (Callable ps r k ks vs) => match substitute (mkSubst keys vals) (Callable ps r k ks vs) with
                                    | Callable ps r _ _ _ => Some (ps, r)
                                    | _ => None
                                    end
  | _ => None
  end.
(** combine_no_vars, l95-141, with combine_ty_refs l225-241, combine_ty_adts l274-282, combine_ty_tuples
    l284-292 *)
Definition combine_no_vars (c : ctx) (e a : ty) : out (ctx * cres) :=
  match e, a with
  | Unknown, _ | _, Unknown => obind (unify_with_unknown c (ty_vars e ++ ty_vars a)) (fun c' => Done (c', COk))
  | Never, _ | _, Never => Done (c, COk)
  | _, _ =>
    if ty_eqb e a then Done (c, COk)
    else match e, a with
    | Integer k, Integer l => Done (c, if is_default k || is_default l then COk else CErr EMismatch)
    | Seq _ t, Seq _ u => combine c t u
    | Reference m t, Reference n u =>
        if negb m || n then combine c t u
        else obind (combine c t u) (fun '(c', _) => Done (c', CErr EMismatch))
    | Adt l keys vals args, Callable ps r _ _ _ =>
        match expected_lambda l keys vals with
        | Some (eps, er) => combine_callables c eps er ps r
        | None => Done (c, CErr EMismatch)
        end
    | Callable ps r _ _ _, Callable ps' r' _ _ _ => combine_callables c ps r ps' r'
    | Adt l _ _ args, Adt l' _ _ args' => if l =? l' then combine_pairs c COk args args' else Done (c, CErr EMismatch)
    | Tuple ts, Tuple us => if length ts =? length us then combine_pairs c COk ts us else Done (c, CErr EMismatch)
    | _, _ => Done (c, CErr EMismatch)
    end
  end.
End Rec.
Definition is_tuple (t : ty) : bool := match t with Tuple _ => true | _ => false end.
(** the preparation at the start of combine_types, l72-83 *)
Definition prepare (c : ctx) (e a : ty) : ty * ty :=
  let e := refine_for_specs (msl c) e in
  let a := refine_for_specs (msl c) a in
  (e, match single_element_tuple_ty a with Some x => if is_tuple e then a else x | None => a end).
(** combine_types, l71-93 *)
Fixpoint combine (fuel : nat) (c : ctx) (e a : ty) : out (ctx * cres) :=
  match fuel with
  | 0 => Loop
  | S f =>
    let (e, a) := prepare c e a in
    obind (resolve_infer c e) (fun e => obind (resolve_infer c a) (fun a =>
    match e, a with
    | Var v, r => unify_ty_var c v r
    | l, Var v => unify_ty_var c v l
    | IntVar i, r => unify_int_var c i r
    | l, IntVar i => unify_int_var c i l
    | e, a => combine_no_vars (combine f) c e a
    end))
  end.

(** * Frozen contexts *)
(** freeze, inference.rs:310-317 *)
Definition freeze {A} (f : ctx -> out (ctx * A)) (c : ctx) : out (ctx * A) :=
  obind (f (mkCtx (msl c) (snapshot _ _ (vt c)) (snapshot _ _ (it c)))) (fun '(c1, r) =>
  obind (rollback _ _ (vt c1)) (fun v => obind (rollback _ _ (it c1)) (fun i => Done (mkCtx (msl c1) v i, r)))).
(** msl_scope, inference.rs:319-327 *)
Definition msl_scope {A} (f : ctx -> out (ctx * A)) (c : ctx) : out (ctx * A) :=
  if msl c then f c
  else obind (freeze f (mkCtx true (vt c) (it c))) (fun '(c1, r) => Done (mkCtx false (vt c1) (it c1), r)).

(** * Compatibility queries *)
(** is_tys_compatible, combine_types.rs:24-30: note the order of the arguments of combine_types *)
Definition is_tys_compatible (fuel : nat) (c : ctx) (t into : ty) : out (ctx * bool) :=
  match into with
  | Tuple [] => Done (c, true)
  | _ => freeze (fun c => obind (combine fuel c t into) (fun '(c', r) => Done (c', is_ok r))) c
  end.
(** autoborrow, reference.rs:60-86 *)
Definition autoborrow (t into : ty) : option ty :=
  match into with
  | Reference m' _ => match t with
      | Reference m u => match m, m' with
          | true, true => Some (Reference m u)
          | false, true => None
          | true, false => Some (Reference false u)
          | false, false => Some (Reference m u)
          end
      | _ => Some (Reference m' t)
      end
  | _ => Some t
  end.
(** is_tys_compatible_with_autoborrow, reference.rs:52-58 *)
Definition is_tys_compatible_with_autoborrow (fuel : nat) (c : ctx) (t into : ty) : out (ctx * bool) :=
  match autoborrow t into with None => Done (c, false) | Some t' => is_tys_compatible fuel c t' into end.
(** the resolving used below: Loop if it does not stop *)
Definition resolve_out (fuel : nat) (c : ctx) (t : ty) : out ty := match resolve fuel c t with Some u => Done u | None => Loop end.
(** coerce_types, l32-46: true, or false and a reported error (left out) *)
Definition coerce_types (fuel : nat) (c : ctx) (actual expected : ty) : out (ctx * bool) :=
  obind (resolve_out fuel c actual) (fun a => obind (resolve_out fuel c expected) (fun e =>
  if ty_eqb a e then Done (c, true)
  else obind (combine fuel c e a) (fun '(c', r) => Done (c', is_ok r)))).
(** coerce_to_any_type, l48-69 *)
Fixpoint coerce_any_loop (fuel : nat) (c : ctx) (a : ty) (es : list ty) : out (ctx * bool) :=
  match es with
  | [] => Done (c, false)
  | e :: es' => obind (resolve_out fuel c e) (fun e =>
      if ty_eqb a e then Done (c, true)
      else obind (is_tys_compatible fuel c a e) (fun '(c', b) => if b then Done (c', true) else coerce_any_loop fuel c' a es'))
  end.
Definition coerce_to_any_type (fuel : nat) (c : ctx) (actual : ty) (es : list ty) : out (ctx * bool) :=
  obind (resolve_out fuel c actual) (fun a => coerce_any_loop fuel c a es).
(** intersect_types, l315-339 *)
Definition intersect_types (fuel : nat) (c : ctx) (l r : ty) : out (ctx * ty) :=
  match l, r with
  | Never, _ => Done (c, r)
  | _, Never => Done (c, l)
  | Unknown, _ => Done (c, r)
  | _, _ =>
    obind (combine fuel c l r) (fun '(c1, r1) =>
    obind (if is_ok r1 then Done (c1, true) else obind (combine fuel c1 r l) (fun '(c2, r2) => Done (c2, is_ok r2))) (fun '(c2, ok) =>
    Done (c2, if ok then match l, r with
                         | Reference m t, Reference n _ => Reference (m && n) (unwrap_all_refs t)
                         | _, _ => l
                         end
              else Unknown)))
  end.

(** * The finished result *)
(** unify_remaining_int_vars_into_integer, inference_result.rs:87-103 *)
Fixpoint default_int_vars (c : ctx) (vs : list ty) : out ctx :=
  match vs with
  | [] => Done c
  | IntVar i :: vs' => obind (unify_int_var c i (Integer KInteger)) (fun '(c', _) => default_int_vars c' vs')
  | _ :: vs' => default_int_vars c vs'
  end.
Fixpoint resolve_infers (c : ctx) (vs : list ty) : out (list ty) :=
  match vs with
  | [] => Done []
  | v :: vs' => obind (resolve_infer c v) (fun t => obind (resolve_infers c vs') (fun l => Done (t :: l)))
  end.
Definition unify_remaining (c : ctx) (types : list ty) : out ctx :=
  obind (resolve_infers c (flat_map ty_infers types)) (fun vs => default_int_vars c vs).
(** from_ctx, inference_result.rs:33-44: the types of expressions and patterns *)
Definition final_types (fuel : nat) (c : ctx) (types : list ty) : out (list ty) :=
  obind (unify_remaining c types) (fun c' =>
  match map_opt (fully_resolve fuel FUnknown c') types with Some l => Done l | None => Loop end).
End Db.
