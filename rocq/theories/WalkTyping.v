(** The types that expressions have according to the language, for the part of it that is in WalkModel.

    A rule for every form of expression.  Where the language allows more than the walk over the expressions accepts, the rule
    says so; the cases left out are shown to be refused in WalkProps. *)
From Verif Require Import Base TyModel TyProps InferModel WalkModel.

(** * Declared types *)
(** the types of the language outside specifications and lambdas: no reference to a reference or to a tuple, no tuple of
    one element *)
Definition proper1 (t : ty) : bool :=
  match t with
  | Unit | TBool | Signer | Address | TypeParam _ | Seq _ _ | Adt _ _ _ _ => true
  | Integer k => negb (is_default k)
  | Reference _ u => match u with Reference _ _ | Tuple _ => false | _ => true end
  | Tuple ts => negb (length ts =? 1)
  | _ => false
  end.
Definition proper (t : ty) : Prop := forall x, part x t -> proper1 x = true.
Definition reference (t : ty) : Prop := exists m u, t = Reference m u.

(** * Type parameters *)
(** a type that is not known yet, or known in part: some of its parts are variables, or integers of an unknown kind *)
Inductive loose : ty -> ty -> Prop :=
| lo_unknown : forall t, loose Unknown t
| lo_var : forall v t, loose (Var v) t
| lo_ivar : forall i k, loose (IntVar i) (Integer k)
| lo_int : forall k, loose (Integer KInteger) (Integer k)
| lo_never : loose Never Unit
| lo_node : forall t u, is_infer t = false -> head t = head u -> Forall2 loose (children t) (children u) -> loose t u.
(** the database is given by the context *)
Existing Class db.
(** the type [t] can be given for the type parameter [l]: it is not a reference, and has the abilities that [l] demands as far as
    they are determined while some of its parts are not known *)
Definition allowed {d : db} (l : loc) (t : ty) : Prop :=
  ~ reference t /\ forall w bs l', loose w t -> param_bounds d l = Some bs -> abilities d w = Some l' -> incl bs l'.
(** the type is one of the type parameters, or contains one *)
Definition bare (gs : list loc) (t : ty) : bool := match t with TypeParam l => existsb (Nat.eqb l) gs | _ => false end.
Definition mentions (gs : list loc) (t : ty) : bool := visit (bare gs) t.
(** * What is known of a type *)
(** How much of the type of an expression is known where the expression stands, before what follows it is looked at: 3: all of it;
    2: its outermost constructor; 1: that it is an integer type, or its outermost constructor; 0: nothing.  An integer literal without suffix has an
    integer type of which no more is known, a variable declared without a type has a type of which nothing is known. *)
Definition level := nat.
Definition around (k : level) : level := if k =? 3 then 3 else 2.
(** a type in which the type parameters [gs] are replaced by types of which nothing is known *)
Definition outline (gs : list loc) (t : ty) : level := if mentions gs t then if bare gs t then 0 else 2 else 3.
Definition inside (k : level) : level := if k =? 3 then 3 else 0.
(** the declared type [t] of a field of a struct of which [k] is known, with the type parameters [gs] replaced *)
Definition field_level (k : level) (gs : list loc) (t : ty) : level := if k =? 3 then 3 else outline gs t.
(** all fields of a struct of which [k] is known, with the type parameters [gs] *)
Definition fields_level (k : level) (gs : list loc) : level := match gs with [] => 3 | _ => inside k end.
(** [p] tells that the expression is not a block in braces standing for itself, whose type may be taken from what is expected *)
Definition lv (k : level) (p : bool) : level := if p then k else 0.
(** an expression of type [t] can be used where [u] is declared *)
Inductive goes (k : level) : ty -> ty -> Prop :=
| go_same : forall t, goes k t t
| go_never : forall t, goes k Never t
| go_ref : forall t, 2 <= k -> goes k (Reference true t) (Reference false t).
(** the type of a conditional; the last component tells whether the branches, or parts of them, differ in type *)
Inductive joins : ty -> level -> bool -> bool -> ty -> level -> bool -> bool -> ty -> level -> bool -> Prop :=
| j_same : forall t k p c l q e, proper t -> ~ reference t -> joins t k p c t l q e t (Nat.min (lv k p) (lv l q)) (c || e)
| j_ref : forall m n t k c l e, proper (Reference m t) -> 2 <= k -> 2 <= l -> joins (Reference m t) k true c (Reference n t) l true e (Reference (m && n) t) (Nat.min k l) true
| j_never_l : forall k c t l e, proper t \/ t = Never -> 2 <= k -> 2 <= l -> ~ reference t \/ 3 <= l -> joins Never k true c t l true e t l true
| j_never_r : forall t k c l e, proper t \/ t = Never -> 2 <= k -> 2 <= l -> ~ reference t \/ 3 <= k -> joins t k true c Never l true e t k true.

Definition env := nat -> option (ty * level).
Definition upd (G : env) (x : nat) (t : ty) (k : level) : env := fun y => if y =? x then Some (t, k) else G y.
Definition integral (t : ty) : Prop := exists k, t = Integer k /\ k <> KInteger.
Definition code_type (t : ty) : Prop := t = Integer U64 \/ t = Seq SVector (Integer U8).
Inductive lit_type : lit -> ty -> level -> Prop :=
| l_bool : lit_type LBool TBool 3
| l_int : forall k, k <> KInteger -> lit_type (LInt (Some k)) (Integer k) 3
| l_any : forall k, k <> KInteger -> lit_type (LInt None) (Integer k) 1
| l_address : lit_type LAddress Address 3
| l_bytes : lit_type LBytes (Seq SVector (Integer U8)) 3.
(** the type of a receiver, and that of the parameter it is passed for: borrowed if need be *)
Inductive receives : ty -> ty -> Prop :=
| rc_same : forall t, receives t t
| rc_borrow : forall m t, ~ reference t -> receives t (Reference m t)
| rc_share : forall t, receives (Reference true t) (Reference false t).
(** a reference into a place reached through a reference *)
Definition through (r : option bool) (t : ty) : ty := match r with Some m => Reference m t | None => t end.
(** what the matched place is reached through, behind one more reference: mutable if all are *)
Definition via (r : option bool) (m : bool) : bool := match r with Some n => n && m | None => m end.
Definition constructor (p : pat) : Prop := match p with PStruct _ _ _ _ _ | PTupleStruct _ _ _ => True | _ => False end.
Definition bound_type (l : option lit) (t : ty) : Prop := l = None \/ exists l' j, l = Some l' /\ lit_type l' t j.

Section Typing.
Context {d : db}.
Variables (fields : loc -> nat -> option ty) (ret : ty).
(** ** Patterns *)
(** types [vs] for the type parameters [gs] of a struct that is named with the types [us] for them: types [xs] are found for the
    parameters that [us] leaves open *)
Definition for_params (gs : list loc) (us vs : list ty) : Prop :=
  exists xs, Forall2 allowed gs xs /\ Forall proper xs /\ Forall proper us /\ Forall proper vs /\ vs = map (substitute (mkSubst gs xs)) us.
(** the fields of a struct or variant that has them by position, as declared *)
Definition tuple_fields (l : loc) (n : nat) (ts : list ty) : Prop := length ts = n /\ Forall proper ts /\ forall i t, nth_error ts i = Some t -> fields l i = Some t.
(** [pat_has r G p t k G']: [p] matches values of type [t], known up to [k], and binds the variables that [G'] has more than [G].
    If [r] is [Some m], the value is a place reached through a reference, mutable if [m]: variables are bound to references into it. *)
Inductive pat_has : option bool -> env -> pat -> ty -> level -> env -> Prop :=
| ph_ident : forall r G x t k, G x = None -> proper (through r t) -> pat_has r G (PIdent x) t k (upd G x (through r t) (match r with Some _ => around k | None => k end))
| ph_short : forall r G x t k, G x = None -> proper (through r t) -> pat_has r G (PShort x) t k (upd G x (through r t) (match r with Some _ => around k | None => k end))
| ph_path : forall r G t k, pat_has r G PPath t k G
| ph_wild : forall r G t k, pat_has r G PWild t k G
| ph_unit : forall r G k, pat_has r G PUnit Unit k G
| ph_lit : forall r G l t j k, lit_type l t j -> pat_has r G (PLit l) t k G
| ph_range : forall r G lo hi t k, integral t -> bound_type lo t -> bound_type hi t -> pat_has r G (PRange lo hi) t k G
| ph_paren : forall r G p t k G', pat_has r G p t k G' -> pat_has r G (PParen p) t k G'
| ph_single : forall G p t k G', (forall ts, t <> Tuple ts) -> pat_has None G p t k G' -> pat_has None G (PTuple (PCons p PNil)) t k G'
(** a struct or a variant is matched by what a reference to it refers to *)
| ph_deref : forall r m G p t G', constructor p -> pat_has (Some (via r m)) G p t 3 G' -> pat_has r G p (Reference m t) 3 G'
| ph_struct : forall r G l gs us vs fs ps k G', 2 <= k -> for_params gs us vs -> fields_has r G l k gs vs fs ps G' -> pat_has r G (PStruct (OStruct l) gs us fs ps) (Adt l gs vs vs) k G'
| ph_variant : forall r G l v hs us gs vs fs ps k G', 2 <= k -> fields_has r G v k gs vs fs ps G' -> pat_has r G (PStruct (OVariant l v) hs us fs ps) (Adt l gs vs vs) k G'
| ph_tuple_struct : forall r G l gs vs n ts ps k G', 2 <= k -> tuple_fields l n ts -> places r G ps (map (substitute (mkSubst gs vs)) ts) (fields_level k gs) G' -> pat_has r G (PTupleStruct (OStruct l) n ps) (Adt l gs vs vs) k G'
| ph_tuple_variant : forall r G l v gs vs n ts ps k G', 2 <= k -> tuple_fields v n ts -> places r G ps (map (substitute (mkSubst gs vs)) ts) (fields_level k gs) G' -> pat_has r G (PTupleStruct (OVariant l v) n ps) (Adt l gs vs vs) k G'
(** fields by name, with the types [vs] for the type parameters [gs] *)
with fields_has : option bool -> env -> loc -> level -> list loc -> list ty -> list nat -> pats -> env -> Prop :=
| fp_nil : forall r G l k gs vs, fields_has r G l k gs vs [] PNil G
| fp_rest : forall r G l k gs vs f, fields_has r G l k gs vs [f] (PCons PRest PNil) G
| fp_cons : forall r G l k gs vs f t fs p ps G1 G2, fields l f = Some t -> proper t -> pat_has r G p (substitute (mkSubst gs vs) t) (field_level k gs t) G1 -> fields_has r G1 l k gs vs fs ps G2 -> fields_has r G l k gs vs (f :: fs) (PCons p ps) G2
(** fields by position: a [..] stands for any number of them *)
with places : option bool -> env -> pats -> list ty -> level -> env -> Prop :=
| pl_nil : forall r G k, places r G PNil [] k G
| pl_rest : forall r G ps left_out ts k G', each r G ps ts k G' -> places r G (PCons PRest ps) (left_out ++ ts) k G'
| pl_cons : forall r G p t ps ts k G1 G2, pat_has r G p t k G1 -> places r G1 ps ts k G2 -> places r G (PCons p ps) (t :: ts) k G2
with each : option bool -> env -> pats -> list ty -> level -> env -> Prop :=
| ea_nil : forall r G k, each r G PNil [] k G
| ea_cons : forall r G p t ps ts k G1 G2, pat_has r G p t k G1 -> each r G1 ps ts k G2 -> each r G (PCons p ps) (t :: ts) k G2.
(** the pattern of let: also that of a tuple *)
Inductive top_has (G : env) : pat -> ty -> level -> env -> Prop :=
| th_plain : forall p t k G', pat_has None G p t k G' -> top_has G p t k G'
| th_paren : forall p t k G', top_has G p t k G' -> top_has G (PParen p) t k G'
| th_tuple : forall ps ts k G', 2 <= k -> each None G ps ts (inside k) G' -> top_has G (PTuple ps) (Tuple ts) k G'.
(** the pattern of an arm: that of a tuple only if all of the type is known *)
Definition arm_has (G : env) (p : pat) (t : ty) (k : level) (G' : env) : Prop := pat_has None G p t k G' \/ (k = 3 /\ top_has G p t 3 G').
(** ** Expressions *)
(** [has G e t k p c]: [e] has type [t], known up to [k]; [p] as in [lv]; [c]: the type comes from a conditional whose branches differ in type *)
Inductive has (G : env) : expr -> ty -> level -> bool -> bool -> Prop :=
| h_lit : forall l t k, lit_type l t k -> has G (Lit l) t k true false
| h_unit : has G UnitE Unit 3 true false
| h_path : forall x t k, G x = Some (t, k) -> has G (Path x) t k true false
| h_paren : forall e t k p c, has G e t k p c -> has G (Paren e) t k p c
(** a function with the type parameters [gs], for which the types [vs] are found.  What they are is known only from what follows,
    or from the arguments: an argument whose type is that of a type parameter must be of exactly this type *)
| h_call : forall gs vs ps r args, Forall2 allowed gs vs -> Forall proper vs -> Forall proper ps -> proper r -> Forall proper (map (substitute (mkSubst gs vs)) ps) -> proper (substitute (mkSubst gs vs) r) ->
    has_args G (map (bare gs) ps) args (map (substitute (mkSubst gs vs)) ps) -> has G (Call gs ps r args) (substitute (mkSubst gs vs) r) (outline gs r) true false
| h_method : forall recv t k p c gs vs p1 ps r args, has G recv t k p c -> 2 <= lv k p -> Forall2 allowed gs vs -> Forall proper vs -> Forall proper (p1 :: ps) -> proper r -> bare gs p1 = false ->
    Forall proper (map (substitute (mkSubst gs vs)) (p1 :: ps)) -> proper (substitute (mkSubst gs vs) r) -> receives t (substitute (mkSubst gs vs) p1) ->
    has_args G (map (bare gs) ps) args (map (substitute (mkSubst gs vs)) ps) -> has G (Method recv gs (p1 :: ps) r args) (substitute (mkSubst gs vs) r) (outline gs r) true false
| h_struct : forall l gs us vs fs es, for_params gs us vs -> has_fields G l gs vs es fs -> has G (StructLit l gs us fs es) (Adt l gs vs vs) (outline gs (Adt l gs us us)) true false
| h_field : forall e l gs vs xs f t k p c, has G e (Adt l gs vs xs) k p c -> 2 <= lv k p -> fields l f = Some t -> proper t -> has G (Field e f) (substitute (mkSubst gs vs) t) (field_level (lv k p) gs t) true false
| h_field_ref : forall e m l gs vs xs f t c, has G e (Reference m (Adt l gs vs xs)) 3 true c -> fields l f = Some t -> proper t -> has G (Field e f) (substitute (mkSubst gs vs) t) 3 true false
| h_vec : forall args t, proper t -> has_args G (repeat true (len_exprs args)) args (repeat t (len_exprs args)) -> has G (Vec args) (Seq SVector t) 2 true false
| h_tuple : forall es ts k, has_tuple G es ts k -> proper (Tuple ts) -> has G (TupleE es) (Tuple ts) (around k) true false
| h_range : forall lo hi t k p c l q, integral t -> has G lo t k p c -> has G hi t l q false -> has G (RangeE lo hi) (Seq SRange t) (around (lv k p)) true false
| h_if : forall e tc k p c b t l q c', has G e tc k p c -> goes k tc TBool -> has_branch G b t l q c' -> goes l t Unit -> has G (If e b) Unit 3 true c'
| h_if_else : forall e tc k p c b1 t1 k1 p1 c1 b2 t2 k2 p2 c2 t l c', has G e tc k p c -> goes k tc TBool -> has_branch G b1 t1 k1 p1 c1 -> has_branch G b2 t2 k2 p2 c2 ->
    joins t1 k1 p1 c1 t2 k2 p2 c2 t l c' -> has G (IfElse e b1 b2) t l true c'
(** a loop that ends by break, or does not end *)
| h_loop : forall b t k p c r, has_branch G b t k p c -> goes k t Unit -> r = Unit \/ r = Never -> has G (LoopE b) r 3 true false
| h_while : forall e tc k p c b t l q c', has G e tc k p c -> goes k tc TBool -> has_branch G b t l q c' -> goes l t Unit -> has G (While e b) Unit 3 true false
| h_for : forall x e sk t k p c b tb l q c', has G e (Seq sk t) k p c -> 2 <= lv k p -> G x = None -> has_branch (upd G x t (inside (lv k p))) b tb l q c' -> goes l tb Unit ->
    has G (For x e b) Unit 3 true false
(** the bounds of a range, as what is known of them is known of the variable *)
| h_for_range : forall x lo hi t k p c l q b tb j r c', integral t -> has G lo t k p c -> has G hi t l q false -> G x = None -> has_branch (upd G x t (lv k p)) b tb j r c' -> goes j tb Unit ->
    has G (For x (RangeE lo hi) b) Unit 3 true false
| h_break : has G Break Never 3 true false
| h_return : ret = Unit -> has G Return Never 3 true false
| h_return_e : forall e t k p c, has G e t k p c -> goes k t ret -> has G (ReturnE e) Never 3 true false
| h_abort : forall e t k p c, has G e t k p c -> code_type t -> has G (Abort e) Never 3 true false
| h_assert : forall e tc k p c, has G e tc k p c -> goes k tc TBool -> has G (Assert e) Unit 3 true false
| h_assert_code : forall e tc k p c e' t l q c', has G e tc k p c -> goes k tc TBool -> has G e' t l q c' -> code_type t -> has G (AssertCode e e') Unit 3 true false
| h_assert_eq : forall a t k p b l q, proper t -> has G a t k p false -> has G b t l q false -> has G (AssertEq (ECons a (ECons b ENil))) Unit 3 true false
| h_cast : forall e t k p c u, has G e t k p c -> integral t -> integral u -> has G (Cast e u) u 3 true false
| h_borrow : forall m e t k p, has G e t k p false -> proper (Reference m t) -> has G (Borrow m e) (Reference m t) (around (lv k p)) true false
| h_deref : forall e m t k p c, has G e (Reference m t) k p c -> 2 <= lv k p -> has G (Deref e) t (inside (lv k p)) true false
| h_index : forall b a t k p c ta l q c', has G b (Seq SVector t) k p c -> 2 <= lv k p -> has G a ta l q c' -> integral ta -> 1 <= lv l q -> has G (Index b a) t (inside (lv k p)) true false
| h_index_ref : forall b a m t c ta l q c', has G b (Reference m (Seq SVector t)) 3 true c -> has G a ta l q c' -> integral ta -> 1 <= lv l q -> has G (Index b a) t 3 true false
| h_slice : forall b a t k p c ta l q c', has G b (Seq SVector t) k p c -> 2 <= lv k p -> has G a (Seq SRange ta) l q c' -> 2 <= lv l q -> has G (Index b a) (Seq SVector t) (lv k p) true false
| h_block : forall b t k p c, has_block G b t k p c -> has G (Block b) t k false c
| h_arith : forall co l r t k p c j q, integral t -> has G l t k p c -> has G r t j q false -> has G (Arith Plain co l r) (if co then Unit else t) (if co then 3 else lv k p) true false
| h_bit : forall co l r t k p c j q, integral t -> has G l t k p c -> has G r t j q false -> has G (Arith BitOp co l r) (if co then Unit else t) (if co then 3 else lv k p) true false
| h_shift : forall co l r t k p c u j q c', integral t -> has G l t k p c -> has G r u j q c' -> goes j u (Integer U8) -> has G (Arith Shift co l r) (if co then Unit else t) (if co then 3 else lv k p) true false
(** the type of what is assigned differs from that of the place only if that is known *)
| h_assign : forall l r t k p c u j q c', proper t -> has G l t k p c -> has G r u j q c' -> goes j u t -> (u = t /\ c' = false) \/ 2 <= lv k p -> has G (Assign l r) Unit 3 true false
| h_logic : forall l r t k p c u j q c', has G l t k p c -> goes k t TBool -> has G r u j q c' -> goes j u TBool -> has G (Logic l r) TBool 3 true false
| h_eq : forall l r t k p c j q c', proper t -> has G l t k p c -> has G r t j q c' -> has G (EqE l r) TBool 3 true false
| h_eq_ref : forall l r t m k p c n j q c', proper (Reference m t) -> has G l (Reference m t) k p c -> has G r (Reference n t) j q c' -> 2 <= lv k p -> 2 <= lv j q -> has G (EqE l r) TBool 3 true false
| h_ord : forall l r t k p c j q c', integral t -> has G l t k p c -> has G r t j q c' -> has G (OrdE l r) TBool 3 true false
| h_not : forall e t k p c, has G e t k p c -> goes k t TBool -> has G (Not e) TBool 3 true false
(** arms of one type, which is not a reference, or that do not end *)
| h_match : forall e a t k p c ts u l, has G e t k p c -> proper t -> has_arms G t (lv k p) a ts l -> In u ts -> (forall x, In x ts -> x = u \/ x = Never) -> (proper u /\ ~ reference u) \/ u = Never ->
    has G (Match e a) u l true false
| h_vec_of : forall args t, proper t -> has_args G (repeat true (len_exprs args)) args (repeat t (len_exprs args)) -> has G (VecOf t args) (Seq SVector t) 2 true false
(** of exactly the type of the annotation *)
| h_annotated : forall e t k p c, proper t -> has G e t k p c -> has G (Annotated e t) t (lv k p) true false
| h_is : forall e t k p c, has G e t k p c -> has G (Is e) TBool 3 true false
| h_minus : forall e t k p c, integral t -> has G e t k p c -> has G (Minus e) t (lv k p) true false
(** arguments: of exactly the types of the parameters where that is demanded, as for the elements of a vector *)
with has_args (G : env) : list bool -> exprs -> list ty -> Prop :=
| ha_nil : has_args G [] ENil []
| ha_cons : forall x xs e t k p c es u us, has G e t k p c -> (x = true -> t = u /\ c = false) -> goes k t u -> has_args G xs es us -> has_args G (x :: xs) (ECons e es) (u :: us)
with has_tuple (G : env) : exprs -> list ty -> level -> Prop :=
| ht_nil : has_tuple G ENil [] 3
| ht_cons : forall e t k p es ts l, has G e t k p false -> has_tuple G es ts l -> has_tuple G (ECons e es) (t :: ts) (Nat.min (lv k p) l)
with has_fields (G : env) : loc -> list loc -> list ty -> exprs -> list nat -> Prop :=
| hf_nil : forall l gs vs, has_fields G l gs vs ENil []
| hf_cons : forall l gs vs f t e te k p c es fs, fields l f = Some t -> proper t -> proper (substitute (mkSubst gs vs) t) -> has G e te k p c -> goes k te (substitute (mkSubst gs vs) t) -> (bare gs t = true -> te = substitute (mkSubst gs vs) t /\ c = false) ->
    has_fields G l gs vs es fs -> has_fields G l gs vs (ECons e es) (f :: fs)
with has_arms (G : env) : ty -> level -> arms -> list ty -> level -> Prop :=
| hr_nil : forall t k, has_arms G t k ANil [] 3
| hr_cons : forall t k pt G1 e u l q c a us j, arm_has G pt t k G1 -> has G1 e u l q c -> has_arms G t k a us j -> has_arms G t k (ACons pt None e a) (u :: us) (Nat.min (lv l q) j)
| hr_guard : forall t k pt G1 e0 t0 k0 p0 c0 e u l q c a us j, arm_has G pt t k G1 -> has G1 e0 t0 k0 p0 c0 -> goes k0 t0 TBool -> has G1 e u l q c -> has_arms G t k a us j ->
    has_arms G t k (ACons pt (Some e0) e a) (u :: us) (Nat.min (lv l q) j)
with has_branch (G : env) : branch -> ty -> level -> bool -> bool -> Prop :=
| hb_inline : forall e t k p c, has G e t k p c -> has_branch G (Inline e) t k p c
| hb_braces : forall b t k p c, has_block G b t k p c -> has_branch G (Braces b) t k p c
with has_block (G : env) : block -> ty -> level -> bool -> bool -> Prop :=
| hk_tail : forall e t k p c, has G e t k p c -> has_block G (Tail e) t k p c
| hk_none : has_block G NoTail Unit 3 true false
| hk_let : forall pt G1 t e u k p c b r l q c', proper t -> has G e u k p c -> goes k u t -> top_has G pt t 3 G1 -> has_block G1 b r l q c' -> has_block G (SLet pt (Some t) e b) r l q c'
| hk_let_infer : forall pt G1 e t k p c b r l q c', proper t -> has G e t k p c -> top_has G pt t (lv k p) G1 -> has_block G1 b r l q c' -> has_block G (SLet pt None e b) r l q c'
| hk_declare : forall pt G1 t b r l q c, proper t -> top_has G pt t 3 G1 -> has_block G1 b r l q c -> has_block G (SLet0 pt (Some t) b) r l q c
| hk_declare_infer : forall x t b r l q c, G x = None -> proper t -> has_block (upd G x t 0) b r l q c -> has_block G (SLet0 (PIdent x) None b) r l q c
| hk_expr : forall e t k p c b r l q c', has G e t k p c -> has_block G b r l q c' -> has_block G (SExpr e b) r l q c'.
End Typing.
Scheme has_mut := Minimality for has Sort Prop with has_args_mut := Minimality for has_args Sort Prop with has_tuple_mut := Minimality for has_tuple Sort Prop
with has_fields_mut := Minimality for has_fields Sort Prop with has_arms_mut := Minimality for has_arms Sort Prop with has_branch_mut := Minimality for has_branch Sort Prop with has_block_mut := Minimality for has_block Sort Prop.
Combined Scheme has_all from has_mut, has_args_mut, has_tuple_mut, has_fields_mut, has_arms_mut, has_branch_mut, has_block_mut.
Scheme pat_has_mut := Minimality for pat_has Sort Prop with fields_has_mut := Minimality for fields_has Sort Prop with places_mut := Minimality for places Sort Prop with each_mut := Minimality for each Sort Prop.
Combined Scheme pat_has_all from pat_has_mut, fields_has_mut, places_mut, each_mut.
