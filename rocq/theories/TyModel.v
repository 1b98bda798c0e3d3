(** Model of types, folding, visiting and substitution.

    Source: crates/lang/src/types/ty.rs, ty/*.rs, fold.rs, substitution.rs, abilities.rs.

    Simplified: a source location is a number.  A substitution, a hash map from type parameters to types in
    the code, is a list of parameters together with the list of their types, in a fixed order of the
    parameters, so that equality of maps is equality of lists. *)
From Verif Require Import Base.

Definition loc := nat.
(** enum IntegerKind, integer.rs:13-28 *)
Inductive ikind := KInteger | U8 | U16 | U32 | U64 | U128 | U256 | I8 | I16 | I32 | I64 | I128 | I256.
Definition ikind_eq_dec : forall a b : ikind, {a = b} + {a <> b}. Proof. decide equality. Defined.
Definition is_default (k : ikind) : bool := match k with KInteger => true | _ => false end.
(** struct TyVar, ty_var.rs:21-24,62-66: an index and perhaps the type parameter it stands for *)
Record tyvar := mkVar { v_origin : option loc; v_index : nat }.
Definition tyvar_eq_dec : forall a b : tyvar, {a = b} + {a <> b}. Proof. repeat decide equality. Defined.
Inductive seq_kind := SVector | SRange.
(** enum TyCallableKind without the substitution, ty_callable.rs:22-27 *)
Inductive call_kind := CNamed (l : option loc) | CLambda (l : option loc) | CPredicate (l : option loc).
Definition call_kind_eq_dec : forall a b : call_kind, {a = b} + {a <> b}. Proof. repeat decide equality. Defined.

(** enum Ty, ty.rs:40-65 with TySequence, TyInfer, TyReference, TyAdt, TyCallable, TyTuple, TySchema.
    [Callable params ret kind keys vals]: keys and vals are the substitution of a named callable, empty for
    the other kinds. *)
Inductive ty :=
| Unknown | Never | Unit | TBool | Signer | Address | Integer (k : ikind) | Num | Bv
| Seq (k : seq_kind) (t : ty)
| Var (v : tyvar)
| IntVar (i : nat)
| TypeParam (p : loc)
| Reference (is_mut : bool) (t : ty)
| Adt (l : loc) (keys : list loc) (vals : list ty) (args : list ty)
| Callable (params : list ty) (ret : ty) (k : call_kind) (keys : list loc) (vals : list ty)
| Tuple (ts : list ty)
| Schema (l : loc) (keys : list loc) (vals : list ty) (args : list ty).

(** the types directly inside *)
Definition children (t : ty) : list ty :=
  match t with
  | Seq _ t | Reference _ t => [t]
  | Adt _ _ vals args | Schema _ _ vals args => vals ++ args
  | Callable ps r _ _ vals => ps ++ r :: vals
  | Tuple ts => ts
  | _ => []
  end.

(** size of a type *)
Definition sum_of (f : ty -> nat) : list ty -> nat := fix go l := match l with [] => 0 | x :: l' => f x + go l' end.
Fixpoint size (t : ty) : nat :=
  S (match t with
     | Seq _ t | Reference _ t => size t
     | Adt _ _ vals args | Schema _ _ vals args => sum_of size vals + sum_of size args
     | Callable ps r _ _ vals => sum_of size ps + (size r + sum_of size vals)
     | Tuple ts => sum_of size ts
     | _ => 0
     end).
Notation sizes := (sum_of size).
Lemma size_in : forall l c, In c l -> size c <= sizes l.
Proof. induction l as [|x l IH]; intros c []; cbn; [subst; lia|]. specialize (IH c H). lia. Qed.
Lemma sizes_app : forall a b, sizes (a ++ b) = sizes a + sizes b.
Proof. induction a; intros; cbn; auto. rewrite IHa. lia. Qed.
Lemma size_eq : forall t, size t = S (sizes (children t)).
Proof. intros t. destruct t; cbn [children]; rewrite ?sizes_app; cbn [size sum_of]; lia. Qed.
Lemma size_child : forall t c, In c (children t) -> size c < size t.
Proof. intros t c I. rewrite (size_eq t). apply size_in in I. lia. Qed.
Lemma ty_ind' : forall P : ty -> Prop, (forall t, (forall c, In c (children t) -> P c) -> P t) -> forall t, P t.
Proof.
  intros P H t. assert (G : forall n t, size t < n -> P t).
  { induction n as [|n IH]; intros u L; [lia|]. apply H. intros c I. apply IH. apply size_child in I. lia. }
  apply (G (S (size t))). lia.
Qed.

(** * Folding *)
(** Ty::deep_fold_with, ty.rs:222-232 with the parts' own: apply a fold to the types directly inside *)
Definition deep_fold (f : ty -> ty) (t : ty) : ty :=
  match t with
  | Seq k t => Seq k (f t)
  | Reference m t => Reference m (f t)
  | Adt l keys vals args => Adt l keys (map f vals) (map f args)
  | Callable ps r k keys vals => Callable (map f ps) (f r) k keys (map f vals)
  | Tuple ts => Tuple (map f ts)
  | Schema l keys vals args => Schema l keys (map f vals) (map f args)
  | t => t
  end.
(** the same for folds that may not finish *)
Fixpoint map_opt (f : ty -> option ty) (l : list ty) : option (list ty) :=
  match l with [] => Some [] | x :: l' => match f x, map_opt f l' with Some y, Some ys => Some (y :: ys) | _, _ => None end end.
Definition omap {A B} (o : option A) (f : A -> B) : option B := match o with Some a => Some (f a) | None => None end.
Definition deep_fold_opt (f : ty -> option ty) (t : ty) : option ty :=
  match t with
  | Seq k t => omap (f t) (Seq k)
  | Reference m t => omap (f t) (Reference m)
  | Adt l keys vals args => match map_opt f vals, map_opt f args with Some v, Some a => Some (Adt l keys v a) | _, _ => None end
  | Callable ps r k keys vals => match map_opt f ps, f r, map_opt f vals with Some p, Some r, Some v => Some (Callable p r k keys v) | _, _, _ => None end
  | Tuple ts => omap (map_opt f ts) Tuple
  | Schema l keys vals args => match map_opt f vals, map_opt f args with Some v, Some a => Some (Schema l keys v a) | _, _ => None end
  | t => Some t
  end.

(** * Substitution *)
Record subst := mkSubst { s_keys : list loc; s_vals : list ty }.
(** Substitution::get_ty, substitution.rs:23-25 *)
Fixpoint assoc (p : loc) (keys : list loc) (vals : list ty) : option ty :=
  match keys, vals with
  | k :: ks, v :: vs => if k =? p then Some v else assoc p ks vs
  | _, _ => None
  end.
Definition get_ty (s : subst) (p : loc) : option ty := assoc p (s_keys s) (s_vals s).
(** TyTypeParameterFolder::fold_ty, fold.rs:126-134 *)
Fixpoint fold_params (f : loc -> ty) (t : ty) : ty :=
  match t with
  | TypeParam p => f p
  | Seq k t => Seq k (fold_params f t)
  | Reference m t => Reference m (fold_params f t)
  | Adt l keys vals args => Adt l keys (map (fold_params f) vals) (map (fold_params f) args)
  | Callable ps r k keys vals => Callable (map (fold_params f) ps) (fold_params f r) k keys (map (fold_params f) vals)
  | Tuple ts => Tuple (map (fold_params f) ts)
  | Schema l keys vals args => Schema l keys (map (fold_params f) vals) (map (fold_params f) args)
  | t => t
  end.
(** SubstitutionApplier::fold_ty and substitute, substitution.rs:60-76 *)
Definition substitute (s : subst) (t : ty) : ty := fold_params (fun p => match get_ty s p with Some t => t | None => TypeParam p end) t.
(** Substitution::deep_fold_with, substitution.rs:36-45 *)
Definition fold_subst (f : ty -> ty) (s : subst) : subst := mkSubst (s_keys s) (map f (s_vals s)).

(** * Visiting *)
(** TyInferVisitor, HasTyUnknownVisitor, HasTyInferVisitor, HasTyTypeParamVisitor (fold.rs:142-196): is there
    a part satisfying the mark?  The mark is asked of every node; all marks hold only of leaves. *)
Fixpoint visit (mark : ty -> bool) (t : ty) : bool :=
  mark t ||
  match t with
  | Seq _ t | Reference _ t => visit mark t
  | Adt _ _ vals args | Schema _ _ vals args => existsb (visit mark) vals || existsb (visit mark) args
  | Callable ps r _ _ vals => existsb (visit mark) ps || (visit mark r || existsb (visit mark) vals)
  | Tuple ts => existsb (visit mark) ts
  | _ => false
  end.
Definition has_unknown : ty -> bool := visit (fun t => match t with Unknown => true | _ => false end).
Definition has_infer : ty -> bool := visit (fun t => match t with Var _ | IntVar _ => true | _ => false end).
Definition has_type_param : ty -> bool := visit (fun t => match t with TypeParam _ => true | _ => false end).
(** deep_visit_ty_infers with a visitor that collects type variables and returns false
    (combine_types.rs:144-152): the variables in the order of the visit *)
Fixpoint ty_vars (t : ty) : list tyvar :=
  match t with
  | Var v => [v]
  | Seq _ t | Reference _ t => ty_vars t
  | Adt _ _ vals args | Schema _ _ vals args => flat_map ty_vars vals ++ flat_map ty_vars args
  | Callable ps r _ _ vals => flat_map ty_vars ps ++ ty_vars r ++ flat_map ty_vars vals
  | Tuple ts => flat_map ty_vars ts
  | _ => []
  end.
(** and with a visitor that collects both kinds of variables (inference_result.rs:91-97) *)
Fixpoint ty_infers (t : ty) : list ty :=
  match t with
  | Var v => [Var v]
  | IntVar i => [IntVar i]
  | Seq _ t | Reference _ t => ty_infers t
  | Adt _ _ vals args | Schema _ _ vals args => flat_map ty_infers vals ++ flat_map ty_infers args
  | Callable ps r _ _ vals => flat_map ty_infers ps ++ ty_infers r ++ flat_map ty_infers vals
  | Tuple ts => flat_map ty_infers ts
  | _ => []
  end.

(** * Small helpers of Ty *)
(** unwrap_all_refs, ty.rs:200-205 *)
Fixpoint unwrap_all_refs (t : ty) : ty := match t with Reference _ u => unwrap_all_refs u | t => t end.
(** refine_for_specs, ty.rs:186-198 *)
Definition refine_for_specs (msl : bool) (t : ty) : ty :=
  if msl then
    let t := match t with Reference _ _ => unwrap_all_refs t | t => t end in
    match t with Integer _ | IntVar _ => Num | t => t end
  else t.
(** single_element_tuple_ty, ty.rs:162-170 *)
Definition single_element_tuple_ty (t : ty) : option ty := match t with Tuple [x] => Some x | _ => None end.

(** equality, #[derive(PartialEq)] *)
Definition list_eqb (f : ty -> ty -> bool) : list ty -> list ty -> bool :=
  fix go l m := match l, m with [], [] => true | x :: l', y :: m' => f x y && go l' m' | _, _ => false end.
Definition seq_kind_eq_dec : forall a b : seq_kind, {a = b} + {a <> b}. Proof. decide equality. Defined.
Definition dec {P : Prop} (d : {P} + {~ P}) : bool := if d then true else false.
Fixpoint ty_eqb (a b : ty) : bool :=
  match a, b with
  | Unknown, Unknown | Never, Never | Unit, Unit | TBool, TBool | Signer, Signer | Address, Address | Num, Num | Bv, Bv => true
  | Integer k, Integer l => dec (ikind_eq_dec k l)
  | Seq k t, Seq l u => dec (seq_kind_eq_dec k l) && ty_eqb t u
  | Var v, Var w => dec (tyvar_eq_dec v w)
  | IntVar i, IntVar j => i =? j
  | TypeParam p, TypeParam q => p =? q
  | Reference m t, Reference n u => Bool.eqb m n && ty_eqb t u
  | Adt l k v x, Adt l' k' v' x' | Schema l k v x, Schema l' k' v' x' =>
      (l =? l') && (dec (list_eq_dec Nat.eq_dec k k') && (list_eqb ty_eqb v v' && list_eqb ty_eqb x x'))
  | Callable p r c k v, Callable p' r' c' k' v' =>
      list_eqb ty_eqb p p' && (ty_eqb r r' && (dec (call_kind_eq_dec c c') && (dec (list_eq_dec Nat.eq_dec k k') && list_eqb ty_eqb v v')))
  | Tuple t, Tuple u => list_eqb ty_eqb t u
  | _, _ => false
  end.
Lemma list_eqb_iff : forall l m, (forall x, In x l -> forall y, ty_eqb x y = true <-> x = y) -> (list_eqb ty_eqb l m = true <-> l = m).
Proof.
  induction l as [|x l IH]; intros [|y m] HH; cbn; split; intros E; auto; try discriminate.
  - apply andb_true_iff in E. destruct E as [E1 E2]. apply HH in E1; [|now left]. apply IH in E2; [congruence|]. intros; apply HH; now right.
  - injection E as <- <-. apply andb_true_iff. split; [apply HH; auto; now left|]. apply IH; auto. intros; apply HH; now right.
Qed.
Lemma dec_iff : forall (P : Prop) (d : {P} + {~ P}), dec d = true <-> P.
Proof. intros P d. destruct d; cbn; split; auto; discriminate. Qed.
Lemma ty_eqb_iff : forall a b, ty_eqb a b = true <-> a = b.
Proof.
  induction a as [a IH] using ty_ind'. intros b.
  destruct a; destruct b; cbn [ty_eqb]; try (split; [discriminate|congruence]); try (split; reflexivity); cbn [children] in IH;
  rewrite ?andb_true_iff, ?dec_iff, ?Nat.eqb_eq, ?Bool.eqb_true_iff.
  - split; congruence.
  - rewrite IH by now left. split; [intros [-> ->]; auto|intros E; injection E as -> ->; auto].
  - split; congruence.
  - split; congruence.
  - split; congruence.
  - rewrite IH by now left. split; [intros [-> ->]; auto|intros E; injection E as -> ->; auto].
  - rewrite !list_eqb_iff by (intros x I; apply IH; apply in_app_iff; auto). split; [intros (-> & -> & -> & ->); auto|intros E; injection E as -> -> -> ->; auto].
  - rewrite !list_eqb_iff by (intros x I; apply IH; apply in_app_iff; cbn; auto). rewrite IH by (apply in_app_iff; cbn; auto). split; [intros (-> & -> & -> & -> & ->); auto|intros E; injection E as -> -> -> -> ->; auto].
  - rewrite !list_eqb_iff by (intros x I; apply IH; auto). split; [intros ->; auto|intros E; injection E as ->; auto].
  - rewrite !list_eqb_iff by (intros x I; apply IH; apply in_app_iff; auto). split; [intros (-> & -> & -> & ->); auto|intros E; injection E as -> -> -> ->; auto].
Qed.
Definition ty_eq_dec (a b : ty) : {a = b} + {a <> b}.
Proof. destruct (ty_eqb a b) eqn:E; [left; now apply ty_eqb_iff|right; intros H; apply ty_eqb_iff in H; congruence]. Defined.

(** * Abilities *)
(** enum Ability, abilities.rs:15-21 *)
Inductive ability := AKey | AStore | ACopy | ADrop.
Definition ability_eq_dec : forall a b : ability, {a = b} + {a <> b}. Proof. decide equality. Defined.
Definition all_abilities : list ability := [AStore; AKey; ADrop; ACopy].
(** What the database knows: the abilities declared by a struct or enum, the bounds of a type parameter,
    and the function type wrapped by a struct (None when the location does not resolve). *)
Record db := mkDb { adt_abilities : loc -> option (list ability); param_bounds : loc -> option (list ability);
                    wrapped_lambda : loc -> option ty }.
(** Ty::abilities, abilities.rs:55-87 *)
Fixpoint abilities (d : db) (t : ty) : option (list ability) :=
  match t with
  | TBool | Integer _ | Address | Num | Bv => Some [ACopy; ADrop; AStore]
  | IntVar _ => Some [ACopy; ADrop; AStore]
  | Seq SRange _ => Some [ACopy; ADrop; AStore]
  | Signer => Some [ADrop]
  | Unit => Some [ACopy; ACopy]
  | Never => Some []
  | Unknown => Some all_abilities
  | Adt l _ _ _ => adt_abilities d l
  | TypeParam p => param_bounds d p
  | Seq SVector t => abilities d t
  | Var _ => Some all_abilities
  | Reference _ _ => Some [ADrop; ACopy]
  | Callable _ _ _ _ _ | Tuple _ | Schema _ _ _ _ => Some all_abilities
  end.
