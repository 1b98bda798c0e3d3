(** Model of reading types: what type a written type is, and the type arguments of paths.

    Source: crates/lang/src/types/ty_db.rs, ty_db/path.rs, ty_db/function.rs, inference.rs:221-251,
    ide-diagnostics/src/handlers/missing_type_arguments.rs, ide-diagnostics/src/handlers/ability_checking.rs.

    Simplified: a path comes with what it resolves to.  A path in a type does not resolve to a function.  The type arguments
    of a path are lowered before it is known which of them are used.  The hash maps from type parameters to arguments are lists in
    the order of the parameters, so the order of errors is that of the parameters; in the source it is any. *)
From Verif Require Import Base TyModel UnifyModel InferModel.
From Coq Require Import String.
Open Scope string_scope.
Open Scope list_scope.

(** what a path in a type resolves to, where [l] is the location of the item; for a variant, that of its enum *)
Inductive item := IParam (l : loc) | IStruct (l : loc) | IEnum (l : loc) | ISchema (l : loc) | IVariant (l : loc) | IOther.
(** ast::Type: parts that the parser may leave out are options.  A path has a name, what it resolves to, its type arguments, and the type arguments of
    the path before the last [::], if there is one *)
Inductive tsyn :=
| TPath (name : option string) (i : option item) (args : option (list (option tsyn))) (qual : option (option (list (option tsyn))))
| TRef (m : bool) (t : option tsyn)
| TTuple (ts : list tsyn)
| TUnit
| TParen (t : option tsyn)
| TLambda (l : loc) (ps : list tsyn) (r : option tsyn).

(** * Type arguments *)
(** enum PsiTypeArg, path.rs:113-118, with the argument lowered *)
Inductive psi_arg := Present (t : ty) | RequiredAbsent | OptionalAbsent.
(** psi_type_args_subst, path.rs:120-165; [optional]: the path is in an expression or a pattern, or it is a method call *)
Fixpoint zip_args (ps : list loc) (args : list (option ty)) : list (loc * psi_arg) :=
  match ps with
  | [] => []
  | p :: ps' => (p, match args with Some t :: _ => Present t | _ => RequiredAbsent end) :: zip_args ps' (tl args)
  end.
Definition psi_type_args (optional : bool) (ps : list loc) (args : option (list (option ty))) : list (loc * psi_arg) :=
  match args with
  | None => map (fun p => (p, if optional then OptionalAbsent else RequiredAbsent)) ps
  | Some l => zip_args ps l
  end.
(** TypeError::MissingAbilities, for the argument of the type parameter [p] *)
Record missing := mkMissing { m_param : loc; m_ty : ty; m_abilities : list ability }.
Definition lacks (has : list ability) (a : ability) : bool := negb (existsb (fun b => dec (ability_eq_dec a b)) has).

Section Lower.
(** the database, the type parameters of an item, whether in a specification *)
Variables (d : db) (params_of : loc -> list loc) (msl : bool).

(** the loop of type_args_substitution, path.rs:80-107 *)
Definition arg_errors (a : loc * psi_arg) : list missing :=
  match a with
  | (p, Present t) =>
      if msl then [] else
      match param_bounds d p, abilities d t with
      | Some required, Some has => match filter (lacks has) required with [] => [] | l => [mkMissing p t l] end
      | _, _ => []
      end
  | _ => []
  end.
Definition arg_ty (a : loc * psi_arg) : ty :=
  match a with (_, Present t) => t | (p, OptionalAbsent) => TypeParam p | (_, RequiredAbsent) => Unknown end.
(** type_args_substitution, path.rs:67-110 *)
Definition type_args_substitution (optional : bool) (ps : list loc) (args : option (list (option ty))) : subst * list missing :=
  let l := psi_type_args optional ps args in (mkSubst (map fst l) (map arg_ty l), flat_map arg_errors l).
(** TyAdt::new, adt.rs:24-34, and TySchema::new, schema.rs:24-34 *)
Definition new_adt (l : loc) : ty := Adt l (params_of l) (map TypeParam (params_of l)) (map TypeParam (params_of l)).
Definition new_schema (l : loc) : ty := Schema l (params_of l) (map TypeParam (params_of l)) (map TypeParam (params_of l)).
(** lower_path, path.rs:13-65, of a path that resolves to a generic item of type [t] *)
Definition lower_generic (optional : bool) (l : loc) (t : ty) (args : option (list (option ty))) : ty * list missing :=
  let '(s, errors) := type_args_substitution optional (params_of l) args in (substitute s t, errors).
(** lower_path, path.rs:13-65, of a path in a type *)
Definition lower_item (i : item) (args : option (list (option ty))) (qual : option (option (list (option ty)))) : ty :=
  match i with
  | IParam l => TypeParam l
  | IStruct l | IEnum l => fst (lower_generic false l (new_adt l) args)
  | ISchema l => fst (lower_generic false l (new_schema l) args)
  | IVariant l => match qual with None => Unknown | Some a => fst (lower_generic false l (new_adt l) a) end
  | IOther => Unknown
  end.
(** INTEGER_IDENTS, idents.rs:11-13 *)
Definition integer_idents : list string := ["i8"; "i16"; "i32"; "i64"; "i128"; "i256"; "u8"; "u16"; "u32"; "u64"; "u128"; "u256"; "num"].
(** lower_primitive_type, ty_db.rs:122-177 *)
Definition first_arg (args : option (list (option ty))) : ty := match args with Some (Some t :: _) => t | _ => Unknown end.
Definition lower_primitive (name : option string) (args : option (list (option ty))) : option ty :=
  match name with
  | None => None
  | Some n =>
    if msl && existsb (String.eqb n) integer_idents then Some Num
    else if n =? "u8" then Some (Integer U8) else if n =? "u16" then Some (Integer U16) else if n =? "u32" then Some (Integer U32)
    else if n =? "u64" then Some (Integer U64) else if n =? "u128" then Some (Integer U128) else if n =? "u256" then Some (Integer U256)
    else if n =? "i8" then Some (Integer I8) else if n =? "i16" then Some (Integer I16) else if n =? "i32" then Some (Integer I32)
    else if n =? "i64" then Some (Integer I64) else if n =? "i128" then Some (Integer I128) else if n =? "i256" then Some (Integer I256)
    else if n =? "num" then Some Num else if n =? "bv" then Some Bv else if n =? "bool" then Some TBool
    else if n =? "signer" then Some Signer else if n =? "address" then Some Address
    else if n =? "vector" then Some (Seq SVector (first_arg args)) else if n =? "range" then Some (Seq SRange (first_arg args))
    else None
  end%string.
Definition or_unknown (o : option ty) : ty := match o with Some t => t | None => Unknown end.
(** try_lower_type, ty_db.rs:35-96; lower_type, ty_db.rs:22-24, is [or_unknown] of it *)
Fixpoint try_lower (t : tsyn) : option ty :=
  let lower_opt (o : option tsyn) : option ty := match o with Some t => Some (or_unknown (try_lower t)) | None => None end in
  let lower_args (a : option (list (option tsyn))) : option (list (option ty)) := match a with Some l => Some (map lower_opt l) | None => None end in
  match t with
  | TPath name None args _ => lower_primitive name (lower_args args)
  | TPath _ (Some i) args qual => Some (lower_item i (lower_args args) (match qual with Some q => Some (lower_args q) | None => None end))
  | TRef m t => Some (Reference m (or_unknown (lower_opt t)))
  | TTuple ts => Some (Tuple (map (fun t => or_unknown (try_lower t)) ts))
  | TUnit => Some Unit
  | TParen None => None
  | TParen (Some t) => try_lower t
  | TLambda l ps r => Some (Callable (map (fun t => or_unknown (try_lower t)) ps) (match r with Some t => or_unknown (try_lower t) | None => Unit end) (CLambda (Some l)) [] [])
  end.
Definition lower_type (t : tsyn) : ty := or_unknown (try_lower t).

(** * Functions *)
(** the types of the parameters, and the result: None if there is none, Some None if its type is missing *)
Record fun_decl := mkFun { f_loc : loc; f_params : list (option tsyn); f_ret : option (option tsyn) }.
Definition lower_opt (o : option tsyn) : option ty := match o with Some t => Some (lower_type t) | None => None end.
(** lower_function, function.rs:10-54 *)
Definition lower_function (f : fun_decl) : ty :=
  let gs := params_of (f_loc f) in
  Callable (map (fun o => or_unknown (lower_opt o)) (f_params f)) (match f_ret f with Some o => or_unknown (lower_opt o) | None => Unit end)
    (CNamed (Some (f_loc f))) gs (map TypeParam gs).
Definition lower_args (a : option (list (option tsyn))) : option (list (option ty)) := match a with Some l => Some (map lower_opt l) | None => None end.
(** instantiate_path_with_ty_vars, inference.rs:221-251, for the path of a call or a method: [vs] are the variables for the type parameters *)
Definition instantiate_fun (f : fun_decl) (args : option (list (option tsyn))) (vs : list ty) : ty * list missing :=
  let '(t, errors) := lower_generic true (f_loc f) (lower_function f) (lower_args args) in
  (substitute (mkSubst (params_of (f_loc f)) vs) t, errors).

(** * Diagnostics *)
(** the number of errors of check_type_arg_list, missing_type_arguments.rs:118-151 *)
Definition check_type_arg_list (expected actual : nat) : nat :=
  if Nat.eqb expected 0 then 1 else if Nat.ltb actual expected then 1 else if Nat.ltb expected actual then actual - expected else 0.
Definition is_none {A} (o : option A) : bool := match o with None => true | Some _ => false end.
Definition actual_count {A} (args : option (list A)) : nat := match args with Some l => Datatypes.length l | None => 0 end.
(** missing_type_arguments, missing_type_arguments.rs:16-116, for a path in a type, outside of an acquires: the path is not qualified if [qual] is None *)
Definition count_errors (name : option string) (i : option item) (args : option (list (option tsyn))) (local : bool) : nat :=
  match name with
  | None => 0
  | Some n =>
      let actual := actual_count args in
      if ((n =? "vector")%string && local && negb (Nat.eqb actual 1)) then 1
      else match i with
           | Some (IStruct l) =>
               let expected := Datatypes.length (params_of l) in
               match args with
               | Some _ => check_type_arg_list expected actual
               | None => if Nat.eqb expected 0 then 0 else 1
               end
           | _ => 0
           end
  end.
(** the same for the path of a call or of a method *)
Definition call_count_errors (f : loc) (args : option (list (option tsyn))) : nat :=
  match args with Some l => check_type_arg_list (Datatypes.length (params_of f)) (Datatypes.length l) | None => 0 end.
(** struct_field_type_ability_check, ability_checking.rs:8-51, for a field of type [t] of a struct that declares the abilities [declared]: the ability that
    is reported as missing *)
Definition field_error (declared : list ability) (t : ty) : option ability :=
  if has_type_param t || has_infer t then None else
  match abilities d t with
  | None => None
  | Some has =>
      match find (fun '(a, b) => negb (lacks declared a) && lacks has b) [(AKey, AStore); (ACopy, ACopy); (ADrop, ADrop)] with
      | Some (_, b) => Some b
      | None => None
      end
  end.
End Lower.
(** the errors of missing_type_arguments for all paths of a type *)
Definition sum_nat : list nat -> nat := fix go l := match l with [] => 0 | x :: l' => x + go l' end.
Fixpoint type_count_errors (params_of : loc -> list loc) (t : tsyn) : nat :=
  let opt (o : option tsyn) : nat := match o with Some t => type_count_errors params_of t | None => 0 end in
  let args (a : option (list (option tsyn))) : nat := match a with Some l => sum_nat (map opt l) | None => 0 end in
  match t with
  | TPath name i a q => count_errors params_of name i a (is_none q) + (args a + match q with Some q => args q | None => 0 end)
  | TRef _ t | TParen t => opt t
  | TTuple ts => sum_nat (map (type_count_errors params_of) ts)
  | TUnit => 0
  | TLambda _ ps r => sum_nat (map (type_count_errors params_of) ps) + opt r
  end.
