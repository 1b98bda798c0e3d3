(** Model of the walk over the expressions of a function that infers their types.

    Source: crates/lang/src/types/inference/ast_walker.rs, with expectation.rs, patterns.rs,
    ty/integer.rs:80-104, inference/combine_types.rs (InferModel).

    Simplified: an expression comes with what name resolution found: a path is the number of the binding it refers to, a
    call has the type parameters of its function and the parameter and result types after the type arguments of the path are
    replaced; a struct literal and the pattern of a struct have the type parameters of the struct and the types for them, which are the
    type parameters themselves where the path has no type arguments.  The syntax is complete: no part of an
    expression is missing, except where a part is optional.  Annotations come as types.
    A pattern of a struct or of a variant comes with what its path resolves to.  Of the maps filled by the walk only the
    types of bindings are kept.  A short field of a struct literal is the path of the variable it names.
    Left out: lambdas, specifications. *)
From Verif Require Import Base TyModel UnifyModel InferModel.

(** ArithOp: + - * / %, & | ^, << >> (ast_walker.rs:1227-1235) *)
Inductive arith := Plain | BitOp | Shift.
Inductive lit := LBool | LInt (suffix : option ikind) | LAddress | LBytes.
(** what the path of a pattern resolves to: a struct, a variant of an enum, or nothing that has fields *)
Inductive owner := OStruct (l : loc) | OVariant (e v : loc) | ONone.
Inductive pat :=
(** an identifier that is a new binding *)
| PIdent (x : nat)
(** the short form of a field of a struct pattern *)
| PShort (x : nat)
(** a path, or an identifier that is a variant: nothing is bound *)
| PPath
| PLit (l : lit)
| PRange (lo hi : option lit)
(** the type parameters, the types for them, the fields by number, the patterns; a [..] among the fields is a PRest *)
| PStruct (o : owner) (gs : list loc) (us : list ty) (fs : list nat) (ps : pats)
(** the number of fields of the owner, the patterns *)
| PTupleStruct (o : owner) (n : nat) (ps : pats)
| PTuple (ps : pats)
| PWild
| PRest
| PParen (p : pat)
| PUnit
with pats := PNil | PCons (p : pat) (ps : pats).
(** BindingMode, patterns.rs:298-302 *)
Inductive bmode := ByValue | ByRef (m : bool).
Inductive expr :=
| Lit (l : lit)
| UnitE
| Path (x : nat)
| Paren (e : expr)
| Call (gs : list loc) (ps : list ty) (r : ty) (args : exprs)
| Method (recv : expr) (gs : list loc) (ps : list ty) (r : ty) (args : exprs)
| StructLit (l : loc) (gs : list loc) (us : list ty) (fs : list nat) (es : exprs)
| Field (e : expr) (f : nat)
| Vec (args : exprs)
| TupleE (es : exprs)
| RangeE (lo hi : expr)
| If (c : expr) (t : branch)
| IfElse (c : expr) (t f : branch)
| LoopE (b : branch)
| While (c : expr) (b : branch)
| For (x : nat) (e : expr) (b : branch)
| Break
| Return
| ReturnE (e : expr)
| Abort (e : expr)
| Assert (c : expr)
| AssertCode (c code : expr)
| AssertEq (args : exprs)
| Cast (e : expr) (t : ty)
| Borrow (m : bool) (e : expr)
| Deref (e : expr)
| Index (b a : expr)
| Block (b : block)
| Arith (op : arith) (compound : bool) (l r : expr)
| Assign (l r : expr)
| Logic (l r : expr)
| EqE (l r : expr)
| OrdE (l r : expr)
| Not (e : expr)
| Match (e : expr) (a : arms)
| VecOf (t : ty) (args : exprs)
| Annotated (e : expr) (t : ty)
| Is (e : expr)
| Minus (e : expr)
with exprs := ENil | ECons (e : expr) (es : exprs)
with branch := Inline (e : expr) | Braces (b : block)
with arms := ANil | ACons (p : pat) (guard : option expr) (e : expr) (a : arms)
with block := Tail (e : expr) | NoTail | SLet (p : pat) (t : option ty) (e : expr) (b : block)
| SLet0 (p : pat) (t : option ty) (b : block) | SExpr (e : expr) (b : block).

(** TypeError without its data *)
Inductive werror := WMismatch | WMismatchAny | WUnsupportedOp | WBinArgs | WBorrowArg | WDeref | WUnpack.
(** TypeAstWalker and the parts of InferenceCtx that are kept *)
Record st := mkSt { cx : ctx; next : nat; binds : nat -> option ty; errs : list werror }.
Definition with_cx (s : st) (c : ctx) : st := mkSt c (next s) (binds s) (errs s).
Definition m (A : Type) := st -> out (st * A).
Definition pure {A} (a : A) : m A := fun s => Done (s, a).
Definition bindm {A B} (x : m A) (f : A -> m B) : m B := fun s => obind (x s) (fun '(s', a) => f a s').
Notation "'let*' x := e 'in' k" := (bindm e (fun x => k)) (at level 200, x pattern, e at level 100, k at level 200).
Definition push (e : werror) : m unit := fun s => Done (mkSt (cx s) (next s) (binds s) (e :: errs s), tt).
Definition set_bind (x : nat) (t : ty) : m unit :=
  fun s => Done (mkSt (cx s) (next s) (fun y => if y =? x then Some t else binds s y) (errs s), tt).
(** TyVarIndex::inc, inference.rs:42-47 *)
Definition inc : m nat := fun s => Done (mkSt (cx s) (S (next s)) (binds s) (errs s), S (next s)).

(** Ty::supports_arithm_op, integer.rs:80-104 *)
Definition supports_arithm_op (t : ty) : bool :=
  match t with Var _ | IntVar _ | Integer _ | Num | Unknown | Never => true | _ => false end.
Definition byte_string : ty := Seq SVector (Integer U8).

Section Walk.
(** the fuel of [resolve] and [combine], the database, the types of the fields of a struct or enum (None: no such field,
    or several), the type returned by the function *)
Variables (fuel : nat) (d : db) (fields : loc -> nat -> option ty) (ret : ty).

Definition resolve_m (t : ty) : m ty := fun s => obind (resolve_out fuel (cx s) t) (fun u => Done (s, u)).
Definition combine_m (e a : ty) : m cres := fun s => obind (combine d fuel (cx s) e a) (fun '(c, r) => Done (with_cx s c, r)).
(** coerce_types with its report, combine_types.rs:32-46, 338-357 *)
Definition coerce_m (a e : ty) : m bool := fun s =>
  obind (coerce_types d fuel (cx s) a e) (fun '(c, b) =>
    if b : bool then Done (with_cx s c, true) else bindm (push WMismatch) (fun _ => pure false) (with_cx s c)).
Definition coerce_any_m (a : ty) (es : list ty) : m bool := fun s =>
  obind (coerce_to_any_type d fuel (cx s) a es) (fun '(c, b) =>
    if b : bool then Done (with_cx s c, true) else bindm (push WMismatchAny) (fun _ => pure false) (with_cx s c)).
(** Expected::ty, expectation.rs:24-29 *)
Definition expected_m (e : option ty) : m (option ty) :=
  match e with None => pure None | Some t => let* u := resolve_m t in pure (Some u) end.
(** intersect_all_types of two types, combine_types.rs:303-313 *)
Definition intersect_m (l r : ty) : m ty :=
  let* l := resolve_m l in let* r := resolve_m r in
  fun s => obind (intersect_types d fuel (cx s) l r) (fun '(c, t) => Done (with_cx s c, t)).

(** infer_literal, l1377-1391 *)
Definition infer_literal (l : lit) : m ty :=
  match l with
  | LBool => pure TBool
  | LInt (Some k) => pure (Integer k)
  | LInt None => let* i := inc in pure (IntVar i)
  | LAddress => pure Address
  | LBytes => pure byte_string
  end.
(** infer_expected_call_arg_tys, l1393-1413 *)
Fixpoint resolve_all (l : list ty) : m (list ty) :=
  match l with [] => pure [] | t :: l' => let* u := resolve_m t in let* us := resolve_all l' in pure (u :: us) end.
Definition expected_args (ps : list ty) (r : ty) (ex : option ty) : m (list ty) :=
  let* ex := expected_m ex in
  match ex with
  | None => pure []
  | Some e => let* r := resolve_m r in let* res := combine_m e r in
              match res with COk => resolve_all ps | CErr _ => pure [] end
  end.
(** coerce_arg of a receiver, l1441-1447: a panic when the receiver cannot be borrowed *)
Definition coerce_self (t e : ty) : m unit :=
  match autoborrow t e with
  | Some t' => let* _ := combine_m t' e in pure tt
  | None => fun _ => Crash
  end.
Definition as_ref (t : option ty) : option ty := match t with Some (Reference _ u) => Some u | _ => None end.
Definition as_tuple (t : option ty) : list ty := match t with Some (Tuple us) => us | _ => [] end.

Fixpoint len_exprs (es : exprs) : nat := match es with ENil => 0 | ECons _ es' => S (len_exprs es') end.

(** intersect_all_types, combine_types.rs:303-313 *)
Fixpoint intersect_from (acc : ty) (l : list ty) : m ty :=
  match l with
  | [] => pure acc
  | t :: l' => let* acc := (fun s => obind (intersect_types d fuel (cx s) acc t) (fun '(c, u) => Done (with_cx s c, u))) in intersect_from acc l'
  end.
Definition intersect_all (l : list ty) : m ty :=
  let* l := resolve_all l in match l with [] => pure Unknown | t :: l' => intersect_from t l' end.

(** instantiate_path_with_ty_vars, inference.rs:221-231, and ty_vars_subst, has_type_params_ext.rs:45-57: variables for the type parameters [gs]
    of the function, or of the struct.  [ps] and [r] are what lower_path gives: type arguments of the path are replaced already *)
Fixpoint fresh_vars (gs : list loc) : m (list ty) :=
  match gs with [] => pure [] | l :: gs' => let* i := inc in let* vs := fresh_vars gs' in pure (Var (mkVar (Some l) i) :: vs) end.
Definition instantiate (gs : list loc) (ps : list ty) (r : ty) : m (list ty * ty) :=
  let* vs := fresh_vars gs in pure (map (substitute (mkSubst gs vs)) ps, substitute (mkSubst gs vs) r).

(** * Patterns *)
Definition compatible_m (t into : ty) : m bool := fun s =>
  obind (is_tys_compatible d fuel (cx s) t into) (fun '(c, b) => Done (with_cx s c, b)).
(** apply_bm, patterns.rs:304-309 *)
Definition apply_bm (t : ty) (bm : bmode) : ty := match bm with ByRef m => Reference m t | ByValue => t end.
(** strip_references, patterns.rs:311-331 *)
Fixpoint strip_references (t : ty) (bm : bmode) : ty * bmode :=
  match t with
  | Reference m u => strip_references u (match bm with ByRef old => ByRef (if old then m else false) | ByValue => ByRef m end)
  | _ => (t, bm)
  end.
(** the substitution of the matched type, patterns.rs:91-94,139-142 *)
Definition adt_subst (t : ty) : subst := match t with Adt _ keys vals _ => mkSubst keys vals | _ => mkSubst [] [] end.
(** get_pat_field_tys, patterns.rs:216-244 *)
Definition field_ty (o : owner) (f : nat) : ty :=
  match o with
  | OStruct l | OVariant _ l => match fields l f with Some t => t | None => Unknown end
  | ONone => Unknown
  end.
Fixpoint len_pats (ps : pats) : nat := match ps with PNil => 0 | PCons _ ps' => S (len_pats ps') end.
Definition is_rest (p : pat) : bool := match p with PRest => true | _ => false end.
(** the first loop of infer_tuple_pat_fields, patterns.rs:257-266: None for isize::MAX and -1 *)
Fixpoint rests (ps : pats) (i : nat) (first last : option nat) : option nat * option nat :=
  match ps with
  | PNil => (first, last)
  | PCons p ps' =>
      if is_rest p then rests ps' (S i) (Some (match first with Some j => Nat.min j i | None => i end)) (Some (match last with Some j => Nat.max j i | None => i end))
      else rests ps' (S i) first last
  end.
(** the types of the patterns from position [i] on, patterns.rs:268-283: a subtraction below zero is a panic *)
Fixpoint pat_types (size len : nat) (get : nat -> ty) (first last : option nat) (ps : pats) (i : nat) : out (list ty) :=
  match ps with
  | PNil => Done []
  | PCons _ ps' =>
      obind (if match first with Some j => i <? j | None => true end then Done (get i)
             else if match last with Some j => j <? i | None => true end then
               if size <? len - i then Crash else Done (get (size - (len - i)))
             else Done Unknown) (fun t =>
      obind (pat_types size len get first last ps' (S i)) (fun l => Done (t :: l)))
  end.
Definition tuple_pat_types (ps : pats) (tys : list ty) : out (list ty) :=
  let '(first, last) := rests ps 0 None None in
  pat_types (length tys) (len_pats ps) (fun i => nth i tys Unknown) first last ps 0.
(** collect_pat_bindings, patterns.rs:25-191 *)
Fixpoint collect (p : pat) (t : ty) (bm : bmode) {struct p} : m unit :=
  match p with
  | PIdent x => let t := apply_bm t bm in set_bind x (match single_element_tuple_ty t with Some u => u | None => t end)
  | PShort x => set_bind x (apply_bm t bm)
  | PPath | PWild | PRest | PUnit => pure tt
  | PLit l => let* a := infer_literal l in let* _ := coerce_m a t in pure tt
  | PRange lo hi =>
      let* _ := match lo with Some l => let* a := infer_literal l in coerce_m a t | None => pure true end in
      let* _ := match hi with Some l => let* a := infer_literal l in coerce_m a t | None => pure true end in
      pure tt
  | PStruct o gs us fs ps =>
      let '(ex, bm) := strip_references t bm in
      let* _ := match o with
        | OStruct l => let* (_, a) := instantiate gs [] (Adt l gs us us) in let* ok := compatible_m ex a in if ok : bool then pure tt else push WUnpack
        | _ => pure tt
        end in
      collect_all ps (map (fun f => substitute (adt_subst ex) (field_ty o f)) fs) bm
  | PTupleStruct o n ps =>
      let '(ex, bm) := strip_references t bm in
      match o with
      | ONone => collect_all ps (repeat Unknown (len_pats ps)) ByValue
      | _ => fun s => obind (tuple_pat_types ps (map (fun f => substitute (adt_subst ex) (field_ty o f)) (seq 0 n))) (fun l => collect_all ps l bm s)
      end
  | PTuple ps =>
      let unpack :=
        let* ok := compatible_m t (Tuple (repeat Unknown (len_pats ps))) in
        let* _ := if ok : bool then pure tt else push WUnpack in
        fun s => obind (tuple_pat_types ps (as_tuple (Some t))) (fun l => collect_all ps l ByValue s) in
      match ps with
      | PCons p PNil => if is_tuple t then unpack else collect p t ByValue
      | _ => unpack
      end
  | PParen p => collect p t bm
  end
with collect_all (ps : pats) (ts : list ty) (bm : bmode) {struct ps} : m unit :=
  match ps, ts with
  | PCons p ps', t :: ts' => let* _ := collect p t bm in collect_all ps' ts' bm
  | _, _ => pure tt
  end.
(** anonymous_pat_ty_var, patterns.rs:287-296 *)
Fixpoint new_vars (n : nat) : m (list ty) :=
  match n with 0 => pure [] | S n' => let* i := inc in let* l := new_vars n' in pure (Var (mkVar None i) :: l) end.
Definition anonymous (p : pat) : m ty :=
  match p with
  | PIdent _ => let* i := inc in pure (Var (mkVar None i))
  | PTuple ps => let* l := new_vars (len_pats ps) in pure (Tuple l)
  | _ => pure Unknown
  end.

(** the types for the type parameters of a struct literal, compared with those that are expected, l795-808: the source goes through
    a map, in no fixed order *)
Fixpoint meet (ks : list loc) (a e : subst) : m unit :=
  match ks with
  | [] => pure tt
  | k :: ks' =>
      let* _ := match get_ty a k, get_ty e k with
        | Some (TypeParam _), _ => pure tt
        | Some x, Some y => let* _ := combine_m x y in pure tt
        | _, _ => pure tt
        end in
      meet ks' a e
  end.
(** infer_expr, l379-514, and the functions it calls.  [ex] is what is expected *)
Fixpoint infer (e : expr) (ex : option ty) {struct e} : m ty :=
  (* infer_expr_coerceable_to, l360-365 *)
  let coerceable (e : expr) (t : ty) : m ty := let* a := infer e (Some t) in let* _ := coerce_m a t in pure a in
  let* t := match e with
  | Lit l => infer_literal l
  | UnitE => pure Unit
  (* infer_path_expr, l516-587, for a local binding *)
  | Path x => fun s => Done (s, match binds s x with Some t => t | None => Unknown end)
  | Paren e => infer e ex
  (* infer_call_expr, l692-719 *)
  | Call gs ps r args =>
      let* (ps, r) := instantiate gs ps r in
      let* eps := expected_args ps r ex in
      let* _ := infer_args args ps eps in
      resolve_m r
  (* infer_method_call_expr, l641-690 *)
  | Method recv gs ps r args =>
      let* self := infer recv None in
      let* self := resolve_m self in
      let* (ps, r) := instantiate gs ps r in
      let* ps := resolve_all ps in
      let* r := resolve_m r in
      let* eps := expected_args ps r ex in
      let* _ := match ps with
        | [] => infer_args args [] []
        | p :: ps' => let* e := resolve_m (hd p eps) in let* _ := coerce_self self e in infer_args args ps' (tl eps)
        end in
      pure r
  (* infer_struct_lit, l768-850 *)
  | StructLit l gs us fs es =>
      let* ex := expected_m ex in
      let* (_, a) := instantiate gs [] (Adt l gs us us) in
      let* a := match ex with
        | Some (Adt _ keys vals _) => let* _ := meet gs (adt_subst a) (mkSubst keys vals) in resolve_m a
        | _ => pure a
        end in
      let* _ := infer_fields es l (adt_subst a) fs in
      resolve_m a
  (* infer_dot_expr, l589-639, where the struct is visible *)
  | Field e f =>
      let* self := infer e None in
      let* self := resolve_m self in
      pure (match unwrap_all_refs self with
            | Adt l keys vals _ => match fields l f with Some t => substitute (mkSubst keys vals) t | None => Unknown end
            | _ => Unknown
            end)
  (* infer_vector_lit_expr, l925-951, without a type argument *)
  | Vec args =>
      let* i := inc in
      let v := Var (mkVar None i) in
      let* a := resolve_m v in
      let ps := repeat a (len_exprs args) in
      let* eps := expected_args ps (Seq SVector v) ex in
      let* _ := infer_args args ps eps in
      resolve_m (Seq SVector v)
  (* infer_tuple_expr, l953-973 *)
  | TupleE es => let* ex := expected_m ex in let* ts := infer_tuple es (as_tuple ex) in pure (Tuple ts)
  (* infer_range_expr, l916-923 *)
  | RangeE lo hi => let* t := infer lo None in let* _ := coerceable hi t in pure (Seq SRange t)
  (* infer_if_expr, l975-1037 *)
  | If c t => let* _ := coerceable c TBool in let* _ := infer_branch t ex in pure Unit
  | IfElse c t f =>
      let* _ := coerceable c TBool in
      let* t1 := infer_branch t ex in
      let* t2 := infer_branch f ex in
      let* compat := combine_m (unwrap_all_refs t2) (unwrap_all_refs t1) in
      let* ex := expected_m ex in
      if is_ok compat then
        let* _ := match ex with
          | Some (Reference n u) => let* _ := coerce_m t1 (Reference n u) in coerce_m t2 (Reference n u)
          | _ => pure true
          end in
        intersect_m t1 t2
      else
        let* _ := match ex with
          | Some u => let* _ := coerce_m t1 u in coerce_m t2 u
          | None => coerce_m (unwrap_all_refs t2) (unwrap_all_refs t1)
          end in
        pure Unknown
  (* infer_loop_expr, infer_while_expr, infer_for_expr, infer_loop_like_body, l1052-1091 *)
  | LoopE b => let* _ := infer_branch b (Some Unit) in pure Never
  | While c b => let* _ := coerceable c TBool in let* _ := infer_branch b (Some Unit) in pure Never
  | For x e b =>
      let* t := infer e None in
      let* t := resolve_m t in
      let* _ := set_bind x (match t with Seq _ u => u | _ => Unknown end) in
      let* _ := infer_branch b (Some Unit) in pure Never
  | Break => pure Never
  | Return => pure Never
  | ReturnE e => let* _ := coerceable e ret in pure Never
  (* infer_abort_expr, l1177-1187 *)
  | Abort e => let* t := infer e None in let* _ := coerce_any_m t [Integer U64; byte_string] in pure Never
  (* infer_plain_assert_expr, l741-766 *)
  | Assert c => let* t := infer c (Some TBool) in let* _ := coerce_m t TBool in pure Unit
  | AssertCode c code =>
      let* t := infer c (Some TBool) in let* _ := coerce_m t TBool in
      let* t := infer code None in let* _ := coerce_any_m t [Integer U64; byte_string] in pure Unit
  (* assert_eq and assert_ne, l726-735 *)
  | AssertEq args => let* i := inc in let v := Var (mkVar None i) in let* _ := infer_args args [v; v; byte_string] [] in pure Unit
  (* infer_cast_expr, l1093-1103 *)
  | Cast e t =>
      let* _ := infer e None in
      let* ex := expected_m ex in
      let* _ := match ex with Some u => combine_m u t | None => pure COk end in
      pure t
  (* infer_borrow_expr, l1122-1142 *)
  | Borrow mu e =>
      let* ex := expected_m ex in
      let* t := infer e (as_ref ex) in
      let* t := match t with
        | Reference _ _ | Tuple _ => let* _ := push WBorrowArg in pure Unknown
        | _ => pure t
        end in
      pure (Reference mu t)
  (* infer_deref_expr, l1144-1160 *)
  | Deref e =>
      let* t := infer e None in
      let* t := resolve_m t in
      match t with
      | Reference _ u => pure u
      | _ => let* _ := push WDeref in pure Unknown
      end
  (* infer_index_expr, l852-887 *)
  | Index b a =>
      let* tb := infer b None in
      let* dt := resolve_m tb in
      let dt := unwrap_all_refs dt in
      let* ta := infer a None in
      match dt with
      | Seq SVector item =>
          match ta with
          | Seq SRange _ => pure dt
          | Integer _ | IntVar _ | Num => pure item
          | _ => fun s => bindm (coerce_m item (if msl (cx s) then Num else Integer KInteger)) (fun _ => pure item) s
          end
      | _ => match tb with
             | Adt _ _ _ _ => let* _ := coerce_m ta Address in pure tb
             | _ => pure Unknown
             end
      end
  (* infer_block_expr, l210-253 *)
  | Block b => infer_block b ex true
  (* infer_bin_expr, l1189-1209; infer_arith_binary_expr, l1219-1283; infer_bit_ops and infer_bit_shifts, l1285-1309 *)
  | Arith Plain compound l r =>
      let* tl := infer l None in
      let* rl := resolve_m tl in
      let ok1 := supports_arithm_op rl in
      let* _ := if ok1 then pure tt else push WUnsupportedOp in
      let* tr := infer r (Some tl) in
      let* rr := resolve_m tr in
      let ok2 := supports_arithm_op rr in
      let* _ := if ok2 then pure tt else push WUnsupportedOp in
      if ok1 && ok2 then
        let* res := combine_m tl tr in
        match res with
        | COk => pure (if compound then Unit else tl)
        | CErr _ => let* _ := push WBinArgs in pure Unknown
        end
      else pure Unknown
  | Arith BitOp compound l r =>
      let* tl := coerceable l (Integer KInteger) in
      let* _ := coerceable r tl in
      pure (if compound then Unit else tl)
  | Arith Shift compound l r =>
      let* tl := coerceable l (Integer KInteger) in
      let* _ := coerceable r (Integer U8) in
      pure (if compound then Unit else tl)
  (* infer_assignment, l1211-1217 *)
  | Assign l r => let* tl := infer l None in let* _ := coerceable r tl in pure Unit
  (* infer_logic_binary_expr, l1311-1317 *)
  | Logic l r => let* _ := coerceable l TBool in let* _ := coerceable r TBool in pure TBool
  (* infer_eq_binary_expr, l1319-1350 *)
  | EqE l r =>
      let* tl := infer l None in
      let* tl := resolve_m tl in
      let* tr := infer r None in
      let* tr := resolve_m tr in
      let '(tl, tr) := match tl, tr with Reference _ a, Reference _ b => (a, b) | _, _ => (tl, tr) end in
      let* res := combine_m tl tr in
      let* _ := match res with COk => pure tt | CErr _ => push WBinArgs end in
      pure TBool
  (* infer_ordering_binary_expr, l1352-1359 *)
  | OrdE l r => let* tl := infer l None in let* tr := infer r None in let* _ := coerce_m tr tl in pure TBool
  (* l473-479 *)
  | Not e => let* _ := infer e (Some TBool) in pure TBool
  (* infer_match_expr, l889-914 *)
  | Match e a =>
      let* t := infer e None in
      let* t := resolve_m t in
      let* ts := infer_arms a t in
      intersect_all ts
  (* infer_vector_lit_expr, with a type argument *)
  | VecOf t args =>
      let* i := inc in
      let v := Var (mkVar None i) in
      let* _ := combine_m v t in
      let* a := resolve_m v in
      let ps := repeat a (len_exprs args) in
      let* eps := expected_args ps (Seq SVector v) ex in
      let* _ := infer_args args ps eps in
      resolve_m (Seq SVector v)
  (* infer_annotated_expr, l1361-1369 *)
  | Annotated e t => coerceable e t
  (* infer_is_expr, l1168-1175 *)
  | Is e => let* _ := infer e None in pure TBool
  (* infer_minus_expr, l1371-1375 *)
  | Minus e => coerceable e (Integer KInteger)
  end in
  fun s => Done (s, refine_for_specs (msl (cx s)) t)
(** coerce_call_arg_types and coerce_arg, l1415-1456, from some parameter on *)
with infer_args (es : exprs) (ps eps : list ty) {struct es} : m unit :=
  match es with
  | ENil => pure tt
  | ECons e es' =>
      let t := match ps with [] => Unknown | p :: _ => hd p eps end in
      let* t := match ps with [] => pure t | _ => resolve_m t end in
      let* a := infer e (Some t) in
      let* _ := coerce_m a t in
      infer_args es' (tl ps) (tl eps)
  end
with infer_fields (es : exprs) (l : loc) (sub : subst) (fs : list nat) {struct es} : m unit :=
  match es with
  | ENil => pure tt
  | ECons e es' =>
      let t := substitute sub (match fs with f :: _ => match fields l f with Some t => t | None => Unknown end | [] => Unknown end) in
      let* a := infer e (Some t) in
      let* _ := coerce_m a t in
      infer_fields es' l sub (tl fs)
  end
with infer_tuple (es : exprs) (ex : list ty) {struct es} : m (list ty) :=
  match es with
  | ENil => pure []
  | ECons e es' =>
      let* t := match ex with
        | t :: _ => let* a := infer e (Some t) in let* _ := coerce_m a t in pure a
        | [] => infer e None
        end in
      let* ts := infer_tuple es' (tl ex) in
      pure (t :: ts)
  end
with infer_arms (a : arms) (t : ty) {struct a} : m (list ty) :=
  match a with
  | ANil => pure []
  | ACons p guard e a' =>
      let* _ := collect p t ByValue in
      let* _ := match guard with Some c => let* _ := infer c (Some TBool) in pure tt | None => pure tt end in
      let* u := infer e None in
      let* us := infer_arms a' t in
      pure (u :: us)
  end
(** infer_block_or_inline_expr, l1105-1120, with false *)
with infer_branch (b : branch) (ex : option ty) {struct b} : m ty :=
  match b with Inline e => infer e ex | Braces b => infer_block b ex false end
(** infer_block_expr, l210-253, outside specifications, with process_stmt, l255-296 *)
with infer_block (b : block) (ex : option ty) (co : bool) {struct b} : m ty :=
  match b with
  | NoTail =>
      let* ex := expected_m ex in
      let* _ := match ex with
        | Some u => if co then coerce_m Unit u else let* _ := combine_m Unit u in pure true
        | None => pure true
        end in
      pure Unit
  | Tail e =>
      let* ex := expected_m ex in
      let* a := infer e ex in
      (* infer_expr_coerce_to, l368-377 *)
      if co then
        let* ex := expected_m ex in
        match ex with
        | None => pure a
        | Some u => let* ok := coerce_m a u in pure (if ok : bool then u else a)
        end
      else pure a
  | SLet p ann e b' =>
      let* a := infer e ann in
      let* _ := match ann with Some t => coerce_m a t | None => pure true end in
      let* t := match ann with Some t => pure t | None => resolve_m a end in
      let* _ := collect p t ByValue in
      infer_block b' ex co
  | SLet0 p ann b' =>
      let* a := anonymous p in
      let* t := match ann with Some t => pure t | None => resolve_m a end in
      let* _ := collect p t ByValue in
      infer_block b' ex co
  | SExpr e b' => let* _ := infer e None in infer_block b' ex co
  end.
End Walk.
