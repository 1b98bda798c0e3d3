(** C60: ability errors follow Move's rules; C61: a written type is read as the type it names. *)
From Verif Require Import Base TyModel TyProps UnifyModel InferModel InferProps LowerModel.
From Coq Require Import String.
Open Scope string_scope.
Open Scope list_scope.

(** * Reading types *)
(** ** What a written type names *)
Definition int_names : list (string * ikind) :=
  [("u8", U8); ("u16", U16); ("u32", U32); ("u64", U64); ("u128", U128); ("u256", U256); ("i8", I8); ("i16", I16); ("i32", I32); ("i64", I64); ("i128", I128); ("i256", I256)].
Inductive names_prim (msl : bool) : string -> ty -> Prop :=
| np_int : forall n k, In (n, k) int_names -> names_prim msl n (if msl then Num else Integer k)
| np_num : names_prim msl "num" Num
| np_bv : names_prim msl "bv" Bv
| np_bool : names_prim msl "bool" TBool
| np_signer : names_prim msl "signer" Signer
| np_address : names_prim msl "address" Address.
Inductive names_item : item -> loc -> (list loc -> list ty -> list ty -> ty) -> Prop :=
| ni_struct : forall l, names_item (IStruct l) l (Adt l)
| ni_enum : forall l, names_item (IEnum l) l (Adt l)
| ni_schema : forall l, names_item (ISchema l) l (Schema l).
Section Reads.
Variables (params_of : loc -> list loc) (msl : bool).
Inductive reads : tsyn -> ty -> Prop :=
| r_prim : forall n t q, names_prim msl n t -> reads (TPath (Some n) None None q) t
| r_vector : forall s t q, reads s t -> reads (TPath (Some "vector") None (Some [Some s]) q) (Seq SVector t)
| r_range : forall s t q, reads s t -> reads (TPath (Some "range") None (Some [Some s]) q) (Seq SRange t)
| r_param : forall n l q, reads (TPath n (Some (IParam l)) None q) (TypeParam l)
(** an item without type parameters *)
| r_plain : forall n i l mk q, names_item i l mk -> params_of l = [] -> reads (TPath n (Some i) None q) (mk [] [] [])
| r_item : forall n i l mk ss ts q, names_item i l mk -> ss <> [] -> reads_all ss ts -> List.length ts = List.length (params_of l) -> reads (TPath n (Some i) (Some (map Some ss)) q) (mk (params_of l) ts ts)
(** a variant is of the type of its enum *)
| r_variant : forall n l a ss ts, reads_all ss ts -> List.length ts = List.length (params_of l) -> reads (TPath n (Some (IVariant l)) a (Some (Some (map Some ss)))) (Adt l (params_of l) ts ts)
| r_ref : forall m s t, reads s t -> reads (TRef m (Some s)) (Reference m t)
| r_tuple : forall ss ts, reads_all ss ts -> reads (TTuple ss) (Tuple ts)
| r_unit : reads TUnit Unit
| r_paren : forall s t, reads s t -> reads (TParen (Some s)) t
| r_lambda : forall l ss ts s t, reads_all ss ts -> reads s t -> reads (TLambda l ss (Some s)) (Callable ts t (CLambda (Some l)) [] [])
| r_lambda_unit : forall l ss ts, reads_all ss ts -> reads (TLambda l ss None) (Callable ts Unit (CLambda (Some l)) [] [])
with reads_all : list tsyn -> list ty -> Prop :=
| ra_nil : reads_all [] []
| ra_cons : forall s t ss ts, reads s t -> reads_all ss ts -> reads_all (s :: ss) (t :: ts).
End Reads.
Scheme reads_mut := Minimality for reads Sort Prop with reads_all_mut := Minimality for reads_all Sort Prop.
Combined Scheme reads_both from reads_mut, reads_all_mut.

Lemma prim_lowered : forall msl n t, names_prim msl n t -> forall args, lower_primitive msl (Some n) args = Some t.
Proof.
  intros msl n t H args. inversion H as [n' k I| | | | |]; subst; destruct msl; try reflexivity.
  - cbn in I. repeat (destruct I as [I|I]; [inversion I; subst; reflexivity|]). destruct I.
  - cbn in I. repeat (destruct I as [I|I]; [inversion I; subst; reflexivity|]). destruct I.
Qed.
Lemma zip_some : forall ps ts, List.length ts = List.length ps -> map fst (zip_args ps (map Some ts)) = ps /\ map arg_ty (zip_args ps (map Some ts)) = ts.
Proof. induction ps as [|p ps IH]; intros [|t ts] L; try discriminate; [now split|]. cbn in L |- *. destruct (IH ts) as [-> ->]; [congruence|now split]. Qed.
Lemma subst_own : forall ps ts, NoDup ps -> List.length ts = List.length ps -> map (substitute (mkSubst ps ts)) (map TypeParam ps) = ts.
Proof.
  intros ps ts ND L. unfold substitute, get_ty. cbn [s_keys s_vals]. rewrite map_map. cbn [fold_params]. revert ts L. induction ND as [|p ps NI ND IH]; intros [|t ts] L; try discriminate; [reflexivity|].
  cbn [map assoc]. rewrite Nat.eqb_refl. f_equal. etransitivity; [|apply (IH ts); cbn in L; congruence]. apply map_ext_in. intros q IQ. destruct (p =? q)%nat eqn:E; [|reflexivity]. apply Nat.eqb_eq in E. subst. contradiction.
Qed.
Section Lowered.
Variables (d : db) (params_of : loc -> list loc) (msl : bool).
(** type parameters are distinct *)
Hypothesis distinct : forall l, NoDup (params_of l).
Lemma generic_lowered : forall o l ts t, List.length ts = List.length (params_of l) -> fst (lower_generic d params_of msl o l t (Some (map Some ts))) = substitute (mkSubst (params_of l) ts) t.
Proof. intros o l ts t L. unfold lower_generic, type_args_substitution. cbn [psi_type_args fst]. destruct (zip_some _ _ L) as [-> ->]. reflexivity. Qed.
Lemma adt_lowered : forall o l ts, List.length ts = List.length (params_of l) -> fst (lower_generic d params_of msl o l (new_adt params_of l) (Some (map Some ts))) = Adt l (params_of l) ts ts.
Proof. intros o l ts L. rewrite generic_lowered by exact L. unfold new_adt. change (substitute ?s (Adt l ?k ?v ?a)) with (Adt l k (map (substitute s) v) (map (substitute s) a)). now rewrite subst_own. Qed.
Lemma schema_lowered : forall o l ts, List.length ts = List.length (params_of l) -> fst (lower_generic d params_of msl o l (new_schema params_of l) (Some (map Some ts))) = Schema l (params_of l) ts ts.
Proof. intros o l ts L. rewrite generic_lowered by exact L. unfold new_schema. change (substitute ?s (Schema l ?k ?v ?a)) with (Schema l k (map (substitute s) v) (map (substitute s) a)). now rewrite subst_own. Qed.
Lemma item_lowered : forall i l mk ts q, names_item i l mk -> List.length ts = List.length (params_of l) -> lower_item d params_of msl i (Some (map Some ts)) q = mk (params_of l) ts ts.
Proof. intros i l mk ts q H L. inversion H; subst; cbn [lower_item]; [now apply adt_lowered|now apply adt_lowered|now apply schema_lowered]. Qed.
Lemma plain_lowered : forall i l mk q, names_item i l mk -> params_of l = [] -> lower_item d params_of msl i None q = mk [] [] [].
Proof. intros i l mk q H E. inversion H; subst; cbn [lower_item]; unfold lower_generic, type_args_substitution, new_adt, new_schema; rewrite E; reflexivity. Qed.
Lemma lower_somes : forall ss ts, Forall2 (fun s t => try_lower d params_of msl s = Some t) ss ts -> map (fun o => match o with Some t => Some (or_unknown (try_lower d params_of msl t)) | None => None end) (map Some ss) = map Some ts.
Proof. intros ss ts F. induction F as [|s t ss ts E F IH]; [reflexivity|]. cbn [map]. now rewrite E, IH. Qed.
Lemma lower_all : forall ss ts, Forall2 (fun s t => try_lower d params_of msl s = Some t) ss ts -> map (fun t => or_unknown (try_lower d params_of msl t)) ss = ts.
Proof. intros ss ts F. induction F as [|s t ss ts E F IH]; [reflexivity|]. cbn [map]. now rewrite E, IH. Qed.
Lemma reads_lowered : (forall s t, reads params_of msl s t -> try_lower d params_of msl s = Some t) /\ (forall ss ts, reads_all params_of msl ss ts -> Forall2 (fun s t => try_lower d params_of msl s = Some t) ss ts).
Proof.
  apply reads_both; intros; cbn [try_lower].
  - now apply prim_lowered.
  - cbn [map]. rewrite H0. destruct msl; reflexivity.
  - cbn [map]. rewrite H0. destruct msl; reflexivity.
  - reflexivity.
  - f_equal. eapply plain_lowered; eauto.
  - f_equal. rewrite (lower_somes _ _ H2). now apply item_lowered.
  - f_equal. rewrite (lower_somes _ _ H0). cbn [lower_item]. now apply adt_lowered.
  - now rewrite H0.
  - now rewrite (lower_all _ _ H0).
  - reflexivity.
  - exact H0.
  - now rewrite (lower_all _ _ H0), H2.
  - now rewrite (lower_all _ _ H0).
  - constructor.
  - now constructor.
Qed.
End Lowered.
(** A written type is read as the type that it names. *)
Theorem type_read_as_named : forall d params_of msl s t, (forall l, NoDup (params_of l)) -> reads params_of msl s t -> lower_type d params_of msl s = t.
Proof. intros d params_of msl s t ND H. unfold lower_type. now rewrite (proj1 (reads_lowered d params_of msl ND) _ _ H). Qed.

(** ** Functions *)
(** The type of a function has the types written for its parameters and its result, which is the unit type if there is none. *)
Definition result_reads (params_of : loc -> list loc) (msl : bool) (o : option (option tsyn)) (t : ty) : Prop :=
  match o with None => t = Unit | Some None => False | Some (Some s) => reads params_of msl s t end.
Theorem function_type_read : forall d params_of msl f ss ts r, (forall l, NoDup (params_of l)) -> f_params f = map Some ss -> reads_all params_of msl ss ts -> result_reads params_of msl (f_ret f) r ->
  let gs := params_of (f_loc f) in lower_function d params_of msl f = Callable ts r (CNamed (Some (f_loc f))) gs (map TypeParam gs).
Proof.
  intros d params_of msl f ss ts r ND EP RA RR gs. unfold lower_function. fold gs. f_equal.
  - rewrite EP, map_map. clear - ND RA. induction RA as [|s t ss ts R RA IH]; [reflexivity|]. cbn [map]. rewrite IH. cbn [lower_opt or_unknown]. now rewrite (type_read_as_named _ _ _ _ _ ND R).
  - destruct (f_ret f) as [[s|]|]; cbn in RR; [|destruct RR|now symmetry]. cbn [lower_opt or_unknown]. now apply type_read_as_named.
Qed.
(** ** Type arguments of calls *)
(** With a type for each type parameter, a function called by its path has the types of its declaration with these types for the type
    parameters, and no variables are left, unless the types have type parameters of the function itself in them. *)
Theorem explicit_type_arguments : forall d params_of msl f ss ts vs, (forall l, NoDup (params_of l)) -> reads_all params_of msl ss ts -> let gs := params_of (f_loc f) in
  List.length ts = List.length gs -> List.length vs = List.length gs -> (forall t p, In t ts -> In p gs -> ~ part (TypeParam p) t) ->
  replaced (mkSubst gs ts) (lower_function d params_of msl f) (fst (instantiate_fun d params_of msl f (Some (map Some ss)) vs)).
Proof.
  intros d params_of msl f ss ts vs ND R gs L LV NP. assert (M : forall xs, List.length xs = List.length gs -> is_map (mkSubst gs xs)) by (intros xs LX; split; [apply ND|cbn; congruence]).
  apply substitute_exact; [now apply M|]. unfold instantiate_fun, lower_args. assert (E : map (lower_opt d params_of msl) (map Some ss) = map Some ts) by (unfold lower_opt, lower_type; apply lower_somes; now apply (proj2 (reads_lowered d params_of msl ND))). rewrite E.
  pose proof (generic_lowered d params_of msl true (f_loc f) ts (lower_function d params_of msl f) L) as G. destruct (lower_generic d params_of msl true (f_loc f) (lower_function d params_of msl f) (Some (map Some ts))) as [t es]. cbn [fst] in *. subst t.
  apply substitute_unmapped; [now apply M|]. intros p u PP I. unfold mapped in I. apply in_combine_l in I. cbn [s_keys] in I.
  revert PP. apply substitute_eliminates; [now apply M| |].
  - intros q w IQ. apply in_combine_r in IQ. cbn in IQ. now apply NP.
  - fold gs in I. clear - I L. revert ts L. induction gs as [|g gs IH]; intros [|t ts] L; try discriminate; [destruct I|]. destruct I as [->|I]; [exists t; now left|]. destruct (IH I ts) as [w W]; [cbn in L; congruence|]. exists w. now right.
Qed.
(** Without type arguments the variables are put for the type parameters. *)
Theorem inferred_type_arguments : forall d params_of msl f vs, (forall l, NoDup (params_of l)) -> let gs := params_of (f_loc f) in List.length vs = List.length gs ->
  replaced (mkSubst gs vs) (lower_function d params_of msl f) (fst (instantiate_fun d params_of msl f None vs)) /\ snd (instantiate_fun d params_of msl f None vs) = [].
Proof.
  intros d params_of msl f vs ND gs L. unfold instantiate_fun, lower_args, lower_generic, type_args_substitution. cbn [psi_type_args fst snd]. rewrite !map_map. cbn [fst arg_ty]. split.
  - apply substitute_exact; [split; [apply ND|cbn; congruence]|]. rewrite map_id, substitute_identity. reflexivity.
  - fold gs. clear. induction gs as [|g gs IH]; [reflexivity|exact IH].
Qed.
(** A type argument that is a type parameter of the function itself, as in a recursive call, is replaced by a variable. *)
Theorem own_type_argument_refuted : exists d params_of f ss ts vs, (forall l, NoDup (params_of l)) /\ reads_all params_of false ss ts /\ List.length ts = List.length (params_of (f_loc f)) /\ List.length vs = List.length (params_of (f_loc f)) /\
  ~ replaced (mkSubst (params_of (f_loc f)) ts) (lower_function d params_of false f) (fst (instantiate_fun d params_of false f (Some (map Some ss)) vs)).
Proof.
  exists ex_db, (fun l => if (l =? 1)%nat then [20] else []), (mkFun 1 [Some (TPath (Some "T") (Some (IParam 20)) None None)] None), [TPath (Some "T") (Some (IParam 20)) None None], [TypeParam 20], [Var (mkVar (Some 20) 1)].
  assert (ND : forall l : loc, NoDup (if (l =? 1)%nat then [20] else [])) by (intros l; destruct (l =? 1)%nat; repeat constructor; intros []).
  split; [exact ND|]. split; [constructor; constructor|]. split; [reflexivity|]. split; [reflexivity|].
  intros H. apply substitute_exact in H; [|split; [apply ND|reflexivity]]. vm_compute in H. discriminate H.
Qed.

(** ** The number of type arguments *)
(** types without missing parts whose paths are resolved; of the items, structs only *)
Inductive whole (msl : bool) : tsyn -> Prop :=
| w_prim : forall n t, names_prim msl n t -> whole msl (TPath (Some n) None None None)
| w_no_args : whole msl (TPath (Some "vector") None None None)
| w_vector : forall ss, whole_all msl ss -> whole msl (TPath (Some "vector") None (Some (map Some ss)) None)
| w_param : forall n l, n <> "vector" -> whole msl (TPath (Some n) (Some (IParam l)) None None)
| w_plain : forall n l q, n <> "vector" -> q = None \/ q = Some None -> whole msl (TPath (Some n) (Some (IStruct l)) None q)
| w_struct : forall n l ss q, n <> "vector" -> q = None \/ q = Some None -> ss <> [] -> whole_all msl ss -> whole msl (TPath (Some n) (Some (IStruct l)) (Some (map Some ss)) q)
| w_ref : forall m s, whole msl s -> whole msl (TRef m (Some s))
| w_tuple : forall ss, whole_all msl ss -> whole msl (TTuple ss)
| w_unit : whole msl TUnit
| w_paren : forall s, whole msl s -> whole msl (TParen (Some s))
| w_lambda : forall l ss s, whole_all msl ss -> whole msl s -> whole msl (TLambda l ss (Some s))
| w_lambda_unit : forall l ss, whole_all msl ss -> whole msl (TLambda l ss None)
with whole_all (msl : bool) : list tsyn -> Prop :=
| wa_nil : whole_all msl []
| wa_cons : forall s ss, whole msl s -> whole_all msl ss -> whole_all msl (s :: ss).
Scheme whole_mut := Minimality for whole Sort Prop with whole_all_mut := Minimality for whole_all Sort Prop.
Combined Scheme whole_both from whole_mut, whole_all_mut.
Lemma sum_zero : forall l, sum_nat l = 0 <-> forall x, In x l -> x = 0.
Proof.
  induction l as [|x l IH]; cbn; [split; [intros _ ? []|reflexivity]|]. split.
  - intros H y [->|I]; [lia|]. apply IH; auto. lia.
  - intros H. rewrite (H x) by auto. apply IH. auto.
Qed.
Lemma map_Some_inj : forall (a b : list tsyn), map Some a = map Some b -> a = b.
Proof. induction a as [|x a IH]; intros [|y b] H; try discriminate; [reflexivity|]. cbn in H. inversion H. f_equal. auto. Qed.
Lemma reads_len : forall params_of msl ss ts, reads_all params_of msl ss ts -> List.length ss = List.length ts.
Proof. intros params_of msl ss ts H. induction H; cbn; congruence. Qed.
Definition sums (params_of : loc -> list loc) (ss : list tsyn) : nat := sum_nat (map (type_count_errors params_of) ss).
Lemma args_sum : forall params_of ss, sum_nat (map (fun o => match o with Some t => type_count_errors params_of t | None => 0 end) (map Some ss)) = sums params_of ss.
Proof. intros. unfold sums. now rewrite map_map. Qed.
Lemma not_vector : forall n, n <> "vector" -> (n =? "vector")%string = false.
Proof. intros n H. now apply String.eqb_neq. Qed.
Lemma check_zero : forall e a, a <> 0 -> (check_type_arg_list e a = 0 <-> a = e).
Proof. intros e a NZ. unfold check_type_arg_list. destruct (e =? 0)%nat eqn:E; [apply Nat.eqb_eq in E; lia|]. apply Nat.eqb_neq in E. destruct (a <? e)%nat eqn:L; [apply Nat.ltb_lt in L; lia|]. apply Nat.ltb_ge in L. destruct (e <? a)%nat eqn:G; [apply Nat.ltb_lt in G|apply Nat.ltb_ge in G]; lia. Qed.
Lemma prim_args : forall msl n t, names_prim msl n t -> n <> "vector" /\ n <> "range".
Proof.
  intros msl n t H. inversion H as [n' k I| | | | |]; subst; try (split; discriminate). cbn in I. repeat (destruct I as [I|I]; [inversion I; subst; split; discriminate|]). destruct I.
Qed.
Lemma one_arg : forall A (l : list A), List.length l = 1 -> exists x, l = [x].
Proof. intros A [|x [|y l]] H; try discriminate. now exists x. Qed.
Lemma counted : forall params_of msl, (forall s, whole msl s -> (type_count_errors params_of s = 0 <-> exists t, reads params_of msl s t)) /\
  (forall ss, whole_all msl ss -> (sums params_of ss = 0 <-> exists ts, reads_all params_of msl ss ts)).
Proof.
  intros params_of msl. apply whole_both; intros; cbn [type_count_errors].
  - destruct (prim_args _ _ _ H) as [NV _]. unfold count_errors. rewrite (not_vector _ NV). split; [|reflexivity]. intros _. exists t. now constructor.
  - split; [discriminate|]. intros [t R]. inversion R as [n0 t0 q0 NP| | | | | | | | | | | |]; subst. now destruct (prim_args _ _ _ NP).
  - rewrite args_sum. unfold count_errors. cbn [is_none actual_count]. change (("vector" =? "vector")%string) with true. rewrite map_length. cbn [andb negb]. destruct (List.length ss =? 1)%nat eqn:E; cbn [negb andb].
    + apply Nat.eqb_eq in E. destruct (one_arg _ _ E) as [s ->]. rewrite Nat.add_0_r, Nat.add_0_l. rewrite H0. split.
      * intros [ts R]. inversion R as [|s' t ss' ts' R1 R2]; subst. exists (Seq SVector t). now constructor.
      * intros [t R]. inversion R; subst. exists [t0]. constructor; [assumption|constructor].
    + apply Nat.eqb_neq in E. split; [discriminate|]. intros [t R]. inversion R as [| s t0 q0 R' EQ| s t0 q0 R' EQ | | | | | | | | | |]; subst. destruct ss as [|? [|? ?]]; try discriminate. now elim E.
  - unfold count_errors. rewrite (not_vector _ H). cbn. split; [|reflexivity]. intros _. exists (TypeParam l). constructor.
  - unfold count_errors. rewrite (not_vector _ H). cbn [andb]. assert (Q : match q with Some q => match q with Some l0 => sum_nat (map (fun o => match o with Some t => type_count_errors params_of t | None => 0 end) l0) | None => 0 end | None => 0 end = 0) by (destruct H0 as [->| ->]; reflexivity). rewrite Q. destruct (List.length (params_of l) =? 0)%nat eqn:E.
    + split; [|reflexivity]. intros _. apply Nat.eqb_eq, length_zero_iff_nil in E. exists (Adt l [] [] []). eapply r_plain; [constructor|exact E].
    + split; [discriminate|]. intros [t R]. inversion R as [| | | |n0 i0 l0 mk q0 NI EP| | | | | | | |]; subst. inversion NI; subst. now rewrite EP in E.
  - rewrite args_sum. unfold count_errors. rewrite (not_vector _ H). cbn [andb actual_count]. rewrite map_length. assert (Q : match q with Some q => match q with Some l0 => sum_nat (map (fun o => match o with Some t => type_count_errors params_of t | None => 0 end) l0) | None => 0 end | None => 0 end = 0) by (destruct H0 as [->| ->]; reflexivity). rewrite Q, Nat.add_0_r.
    assert (NZ : List.length ss <> 0) by (destruct ss; [contradiction|discriminate]). split.
    + intros Z. assert (Z1 : check_type_arg_list (List.length (params_of l)) (List.length ss) = 0) by lia. assert (Z2 : sums params_of ss = 0) by lia. rewrite check_zero in Z1 by exact NZ. apply H3 in Z2. destruct Z2 as [ts R]. exists (Adt l (params_of l) ts ts). eapply r_item; [constructor|exact H1|exact R|]. rewrite <- (reads_len _ _ _ _ R). exact Z1.
    + intros [t R]. inversion R as [| | | | |n0 i0 l0 mk ss0 ts q0 NI NE RA LE| | | | | | |]; subst. inversion NI; subst. match goal with E : map Some _ = map Some _ |- _ => apply map_Some_inj in E; subst end.
      assert (Z2 : sums params_of ss = 0) by (apply H3; now exists ts). match goal with |- check_type_arg_list ?e _ + _ = 0 => assert (Z1 : check_type_arg_list e (List.length ss) = 0) end; [|lia]. apply check_zero; [exact NZ|rewrite (reads_len _ _ _ _ RA); exact LE].
  - rewrite H0. split; intros [t R]; [exists (Reference m t); now constructor|inversion R; subst; eauto].
  - fold (sums params_of ss). rewrite H0. split; [intros [ts R]; exists (Tuple ts); now constructor|intros [t R]; inversion R; subst; eauto].
  - split; [|reflexivity]. intros _. exists Unit. constructor.
  - rewrite H0. split; intros [t R]; [exists t; now constructor|inversion R; subst; eauto].
  - fold (sums params_of ss). split.
    + intros Z. destruct (proj1 H0) as [ts RA]; [lia|]. destruct (proj1 H2) as [t R]; [lia|]. eexists. constructor; eassumption.
    + intros [t R]. inversion R; subst. rewrite (proj2 H0), (proj2 H2) by eauto. reflexivity.
  - fold (sums params_of ss). rewrite Nat.add_0_r, H0. split; [intros [ts R]; eexists; constructor; eassumption|intros [t R]; inversion R; subst; eauto].
  - split; [|reflexivity]. intros _. exists []. constructor.
  - unfold sums. cbn [map sum_nat]. fold (sums params_of ss). split.
    + intros Z. destruct (proj1 H0) as [t R]; [lia|]. destruct (proj1 H2) as [ts RA]; [lia|]. exists (t :: ts). now constructor.
    + intros [ts R]. inversion R; subst. rewrite (proj2 H0), (proj2 H2) by eauto. reflexivity.
Qed.

(** The number of type arguments is reported as wrong exactly where a type cannot be read: a type without errors is read as the type it names. *)
Theorem count_errors_exact : forall params_of msl s, whole msl s -> (type_count_errors params_of s = 0 <-> exists t, reads params_of msl s t).
Proof. intros params_of msl. exact (proj1 (counted params_of msl)). Qed.
Theorem type_without_errors_read : forall d params_of msl s, (forall l, NoDup (params_of l)) -> whole msl s -> type_count_errors params_of s = 0 -> reads params_of msl s (lower_type d params_of msl s).
Proof. intros d params_of msl s ND W Z. apply count_errors_exact with (1 := W) in Z. destruct Z as [t R]. now rewrite (type_read_as_named _ _ _ _ _ ND R). Qed.
(** For a call, where all type arguments may be left out *)
Theorem call_count_errors_exact : forall params_of f args, args <> Some [] -> (call_count_errors params_of f args = 0 <-> args = None \/ actual_count args = List.length (params_of f)).
Proof.
  intros params_of f [l|] NE; cbn [call_count_errors actual_count]; [|split; auto].
  assert (NZ : List.length l <> 0) by (destruct l; [contradiction|discriminate]). rewrite check_zero by exact NZ. split; [auto|]. intros [H|H]; [discriminate|exact H].
Qed.
(** Type arguments left out of the path of an enum are not reported, the type is read as one with unknown parts. *)
Theorem enum_arguments_refuted : exists params_of s t, (forall l, NoDup (params_of l)) /\ s = TPath (Some "E") (Some (IEnum 9)) None None /\ type_count_errors params_of s = 0 /\
  (forall u, ~ reads params_of false s u) /\ (forall d, lower_type d params_of false s = t) /\ has_unknown t = true.
Proof.
  exists (fun l => if (l =? 9)%nat then [40] else []), (TPath (Some "E") (Some (IEnum 9)) None None), (Adt 9 [40] [Unknown] [Unknown]).
  split; [intros l; destruct (l =? 9)%nat; repeat constructor; intros []|]. split; [reflexivity|]. split; [reflexivity|]. split; [|split; reflexivity].
  intros u R. inversion R as [| | | |n0 i0 l0 mk q0 NI EP| | | | | | | |]; subst. inversion NI; subst. discriminate EP.
Qed.
(** Type arguments of a built-in type other than vector are not reported. *)
Theorem builtin_arguments_refuted : exists s, s = TPath (Some "u8") None (Some [Some (TPath (Some "bool") None None None)]) None /\
  (forall params_of, type_count_errors params_of s = 0 /\ (forall msl u, ~ reads params_of msl s u)) /\ forall d params_of, lower_type d params_of false s = Integer U8.
Proof.
  eexists. split; [reflexivity|]. split; [|reflexivity]. intros params_of. split; [reflexivity|]. intros msl u R. inversion R.
Qed.
(** struct Pair<A, B>: Pair<vector<T>, &mut Pair<u8, T>>, where T is also the name of the first parameter of Pair *)
Definition ex_params (l : loc) : list loc := if (l =? 8)%nat then [30; 31] else [].
Definition named (n : string) : tsyn := TPath (Some n) None None None.
Definition ex_t : tsyn := TPath (Some "T") (Some (IParam 30)) None None.
Definition pair (a b : tsyn) : tsyn := TPath (Some "Pair") (Some (IStruct 8)) (Some (map Some [a; b])) None.
Definition ex_type : tsyn := pair (TPath (Some "vector") None (Some [Some ex_t]) None) (TRef true (Some (pair (named "u8") ex_t))).
Definition ex_read : ty := let p := Adt 8 [30; 31] [Integer U8; TypeParam 30] [Integer U8; TypeParam 30] in
  Adt 8 [30; 31] [Seq SVector (TypeParam 30); Reference true p] [Seq SVector (TypeParam 30); Reference true p].
Example type_example : (forall l, NoDup (ex_params l)) /\ whole false ex_type /\ reads ex_params false ex_type ex_read /\ lower_type ex_db ex_params false ex_type = ex_read /\ type_count_errors ex_params ex_type = 0 /\
  type_count_errors ex_params (pair (TPath (Some "Pair") (Some (IStruct 8)) (Some [Some ex_t]) None) (named "u8")) = 1.
Proof.
  split; [intros l; unfold ex_params; destruct (l =? 8)%nat; repeat constructor; cbn; lia|].
  assert (U : names_prim false "u8" (Integer U8)) by (apply (np_int false "u8" U8); cbn; auto).
  split; [|split; [|now split]].
  - apply w_struct; [discriminate|auto|discriminate|]. constructor; [apply (w_vector false [ex_t]); constructor; [apply w_param; discriminate|constructor]|]. constructor; [|constructor]. constructor. apply w_struct; [discriminate|auto|discriminate|]. constructor; [eapply w_prim; exact U|]. constructor; [apply w_param; discriminate|constructor].
  - apply (r_item ex_params false _ _ 8 (Adt 8) [_; _] [_; _]); [constructor|discriminate| |reflexivity]. constructor; [constructor; constructor|]. constructor; [|constructor]. constructor.
    apply (r_item ex_params false _ _ 8 (Adt 8) [_; _] [_; _]); [constructor|discriminate| |reflexivity]. constructor; [now constructor|]. constructor; constructor.
Qed.
(** fun f<A, B>(a: A, b: vector<B>): B called as f<u8, bool> *)
Example explicit_example : let f := mkFun 8 [Some (TPath (Some "A") (Some (IParam 30)) None None); Some (TPath (Some "vector") None (Some [Some (TPath (Some "B") (Some (IParam 31)) None None)]) None)] (Some (Some (TPath (Some "B") (Some (IParam 31)) None None))) in
  fst (instantiate_fun ex_db ex_params false f (Some (map Some [named "u8"; named "bool"])) [Var (mkVar (Some 30) 1); Var (mkVar (Some 31) 2)]) =
    Callable [Integer U8; Seq SVector TBool] TBool (CNamed (Some 8)) [30; 31] [Integer U8; TBool] /\
  reads_all ex_params false [named "u8"; named "bool"] [Integer U8; TBool] /\ forall t p, In t [Integer U8; TBool] -> In p (ex_params 8) -> ~ part (TypeParam p) t.
Proof.
  cbn zeta. split; [reflexivity|]. split.
  - constructor; [constructor; apply (np_int false "u8" U8); cbn; auto|]. constructor; [constructor; constructor|constructor].
  - intros t p [<-|[<-|[]]] _ P; inversion P; subst; contradiction.
Qed.

(** fun f<A, B>(a: A, b: &u8) *)
Example function_example : lower_function ex_db ex_params false (mkFun 8 (map Some [TPath (Some "A") (Some (IParam 30)) None None; TRef false (Some (named "u8"))]) None) =
    Callable [TypeParam 30; Reference false (Integer U8)] Unit (CNamed (Some 8)) [30; 31] [TypeParam 30; TypeParam 31] /\
  reads_all ex_params false [TPath (Some "A") (Some (IParam 30)) None None; TRef false (Some (named "u8"))] [TypeParam 30; Reference false (Integer U8)].
Proof. split; [reflexivity|]. constructor; [constructor|]. constructor; [|constructor]. constructor. constructor. apply (np_int false "u8" U8); cbn; auto. Qed.

(** * Abilities *)
(** ** Move's rules *)
Section Can.
Variables (d : db) (phantom : loc -> bool).
(** the ability that the parts of a value must have for it to have [a] *)
Definition needed (a : ability) : ability := match a with AKey => AStore | a => a end.
Definition prim (t : ty) : Prop := t = TBool \/ t = Address \/ exists k, t = Integer k.
Inductive can : ty -> ability -> Prop :=
| c_prim : forall t a, prim t -> a <> AKey -> can t a
| c_signer : can Signer ADrop
| c_vector : forall t a, a <> AKey -> can t a -> can (Seq SVector t) a
| c_ref : forall m t a, a = ACopy \/ a = ADrop -> can (Reference m t) a
| c_param : forall p l a, param_bounds d p = Some l -> In a l -> can (TypeParam p) a
(** a generic struct has an ability that it declares if the types for its type parameters allow it *)
| c_adt : forall l keys vals args declared a, adt_abilities d l = Some declared -> In a declared -> (forall p t, In (p, t) (List.combine keys vals) -> phantom p = true \/ can t (needed a)) -> can (Adt l keys vals args) a.
Lemma can_has : forall t a, can t a -> forall l, abilities d t = Some l -> In a l.
Proof.
  intros t a H. induction H; intros l' E.
  - destruct H as [->|[->|[k ->]]]; cbn in E; inversion E; subst; destruct a; cbn; tauto.
  - cbn in E. inversion E. now left.
  - cbn in E. auto.
  - cbn in E. inversion E; subst. destruct H as [->| ->]; cbn; auto.
  - cbn in E. congruence.
  - cbn in E. congruence.
Qed.
(** types for which the declaration decides: no struct has type parameters, other than phantom ones; no vector of a type is asked for [key] *)
Inductive plain (a : ability) : ty -> Prop :=
| p_prim : forall t, prim t -> plain a t
| p_signer : plain a Signer
| p_ref : forall m t, plain a (Reference m t)
| p_param : forall p, plain a (TypeParam p)
| p_vector : forall t, a <> AKey -> plain a t -> plain a (Seq SVector t)
| p_adt : forall l keys vals args, (forall p t, In (p, t) (List.combine keys vals) -> phantom p = true) -> plain a (Adt l keys vals args).
Lemma has_can : forall t a l, plain a t -> abilities d t = Some l -> In a l -> can t a.
Proof.
  intros t a l H. induction H; cbn [abilities]; intros E I.
  - apply c_prim; auto. intros ->. destruct H as [->|[->|[k ->]]]; inversion E; subst; cbn in I; intuition discriminate.
  - inversion E; subst. destruct I as [<-|[]]. apply c_signer.
  - inversion E; subst. apply c_ref. cbn in I. intuition.
  - eapply c_param; eauto.
  - apply c_vector; auto.
  - eapply c_adt; eauto.
Qed.
Lemma lacks_iff : forall has a, lacks has a = true <-> ~ In a has.
Proof.
  intros has a. unfold lacks. rewrite negb_true_iff. split.
  - intros E I. assert (X : existsb (fun b => dec (ability_eq_dec a b)) has = true) by (apply existsb_exists; exists a; split; [exact I|now apply dec_iff]). congruence.
  - intros NI. destruct (existsb (fun b => dec (ability_eq_dec a b)) has) eqn:E; [|reflexivity]. apply existsb_exists in E. destruct E as (b & I & D). apply dec_iff in D. subst. contradiction.
Qed.
(** ** Type arguments *)
(** An ability is reported as missing only if the type parameter demands it and the type argument does not have it. *)
Theorem type_argument_errors_sound : forall msl o ps args e, In e (snd (type_args_substitution d msl o ps args)) ->
  msl = false /\ m_abilities e <> [] /\ In (m_param e) ps /\ (exists l, args = Some l /\ In (Some (m_ty e)) l) /\
  exists required, param_bounds d (m_param e) = Some required /\ forall a, In a (m_abilities e) -> In a required /\ ~ can (m_ty e) a.
Proof.
  intros msl o ps args e H. unfold type_args_substitution in H. cbn [snd] in H. apply in_flat_map in H. destruct H as ([p x] & IX & IE). destruct x as [t| |]; try destruct IE. unfold arg_errors in IE. destruct msl; [destruct IE|].
  destruct (param_bounds d p) as [required|] eqn:B; [|destruct IE]. destruct (abilities d t) as [has|] eqn:A; [|destruct IE].
  assert (PS : In p ps /\ exists l, args = Some l /\ In (Some t) l).
  { destruct args as [l|]; cbn [psi_type_args] in IX.
    - assert (Z : forall ps l, In (p, Present t) (zip_args ps l) -> In p ps /\ In (Some t) l).
      { induction ps0 as [|q ps0 IH]; intros l0 I; [destruct I|]. cbn in I. destruct I as [I|I].
        - destruct l0 as [|[u|] l0]; inversion I; subst. split; now left.
        - destruct (IH _ I) as [X Y]. split; [now right|]. destruct l0; [destruct Y|now right]. }
      destruct (Z _ _ IX). split; [assumption|]. exists l. auto.
    - apply in_map_iff in IX. destruct IX as (q & E & _). destruct o; discriminate. }
  remember (filter (lacks has) required) as ms eqn:M. destruct ms as [|a ms]; [destruct IE|]. destruct IE as [<-|[]]. cbn [m_abilities m_param m_ty]. split; [reflexivity|]. split; [discriminate|]. split; [apply PS|]. split; [apply PS|].
  exists required. split; [exact B|]. intros b IB. rewrite M in IB. apply filter_In in IB. destruct IB as [IR L]. split; [exact IR|]. intros C. apply lacks_iff in L. apply L. eapply can_has; eauto.
Qed.
(** All of them are reported for types without type arguments.  Missing: what type_argument_refuted shows, and function types. *)
Theorem type_argument_errors_partial : forall o ps l i p t required a, nth_error ps i = Some p -> nth_error l i = Some (Some t) -> param_bounds d p = Some required -> In a required -> abilities d t <> None ->
  plain a t -> ~ can t a -> exists e, In e (snd (type_args_substitution d false o ps (Some l))) /\ m_param e = p /\ m_ty e = t /\ In a (m_abilities e).
Proof.
  intros o ps l i p t required a NP NL B IR NN PL NC. destruct (abilities d t) as [has|] eqn:A; [|contradiction]. assert (L : lacks has a = true) by (apply lacks_iff; intros I; apply NC; eapply has_can; eauto).
  assert (IF : In a (filter (lacks has) required)) by (apply filter_In; auto). exists (mkMissing p t (filter (lacks has) required)). split; [|auto].
  unfold type_args_substitution. cbn [snd psi_type_args]. apply in_flat_map. exists (p, Present t). split.
  - clear - NP NL. revert ps l NP NL. induction i as [|i IH]; intros [|q ps] [|[u|] l] NP NL; try discriminate; cbn in *; [inversion NP; inversion NL; subst; now left| |]; right; eauto.
  - unfold arg_errors. rewrite B, A. destruct (filter (lacks has) required); [destruct IF|now left].
Qed.
(** The same check where a type argument is inferred *)
Theorem inferred_argument_errors_sound : forall c v t ms, ability_check d c v t = CErr (EAbility ms) ->
  ms <> [] /\ exists p required, v_origin v = Some p /\ param_bounds d p = Some required /\ forall a, In a ms -> In a required /\ ~ can t a.
Proof.
  intros c v t ms H. unfold ability_check in H. destruct (v_origin v) as [p|]; [|discriminate]. destruct (param_bounds d p) as [required|] eqn:B; [|discriminate]. destruct (abilities d t) as [has|] eqn:A; [|discriminate]. destruct (msl c); [discriminate|].
  change (filter _ required) with (filter (lacks has) required) in H. remember (filter (lacks has) required) as l eqn:F. destruct l as [|x l]; [discriminate|]. inversion H; subst ms. split; [discriminate|]. exists p, required. split; [reflexivity|]. split; [exact B|].
  intros a I. rewrite F in I. apply filter_In in I. destruct I as [I L]. split; [exact I|]. intros C. apply lacks_iff in L. apply L. eapply can_has; eauto.
Qed.
(** ** Fields *)
(** An ability is reported as missing in a field only if the struct declares one for which the field must have it. *)
Theorem field_errors_sound : forall declared t b, field_error d declared t = Some b -> exists a, In a declared /\ b = needed a /\ ~ can t b.
Proof.
  intros declared t b H. unfold field_error in H. destruct (has_type_param t || has_infer t); [discriminate|]. destruct (abilities d t) as [has|] eqn:A; [|discriminate].
  destruct (find _ _) as [[a b']|] eqn:F; [|discriminate]. inversion H; subst b'. apply find_some in F. destruct F as [I E]. apply andb_true_iff in E. destruct E as [E1 E2]. apply negb_true_iff in E1.
  exists a. split; [|split].
  - destruct (in_dec ability_eq_dec a declared) as [Y|N]; [exact Y|]. apply lacks_iff in N. congruence.
  - cbn in I. destruct I as [I|[I|[I|[]]]]; inversion I; reflexivity.
  - intros C. apply lacks_iff in E2. apply E2. eapply can_has; eauto.
Qed.
(** Of key, copy and drop all are reported for such types.  Missing: [store], and types with type arguments. *)
Theorem field_errors_partial : forall declared t a, has_type_param t = false -> has_infer t = false -> abilities d t <> None -> In a declared -> a <> AStore -> plain (needed a) t -> ~ can t (needed a) ->
  exists b, field_error d declared t = Some b.
Proof.
  intros declared t a T I NN IA NS PL NC. unfold field_error. rewrite T, I. cbn [orb]. destruct (abilities d t) as [has|] eqn:A; [|contradiction].
  assert (L : lacks has (needed a) = true) by (apply lacks_iff; intros X; apply NC; eapply has_can; eauto). assert (D : lacks declared a = false) by (destruct (lacks declared a) eqn:E; [apply lacks_iff in E; contradiction|reflexivity]).
  destruct (find _ _) as [[x y]|] eqn:F; [eauto|]. exfalso. assert (IP : In (a, needed a) [(AKey, AStore); (ACopy, ACopy); (ADrop, ADrop)]) by (destruct a; cbn; tauto || congruence).
  pose proof (find_none _ _ F _ IP) as X. cbn beta iota in X. rewrite D, L in X. discriminate X.
Qed.
End Can.
(** ** What is not reported *)
(** struct S has key; struct Box<T> has copy, drop, store; a type parameter with the bound key, or copy *)
Definition ab_db : db := mkDb (fun l => if (l =? 1)%nat then Some [AKey] else Some [ACopy; ADrop; AStore]) (fun p => if (p =? 40)%nat then Some [] else if (p =? 50)%nat then Some [AKey] else Some [ACopy]) (fun _ => None).
(** f<Box<signer>> for f<T: copy>, and g<vector<S>> for g<T: key>, are not reported though the types do not have the abilities *)
Theorem type_argument_refuted : let box := Adt 2 [40] [Signer] [Signer] in let vec := Seq SVector (Adt 1 [] [] []) in
  param_bounds ab_db 51 = Some [ACopy] /\ ~ can ab_db (fun _ => false) box ACopy /\ snd (type_args_substitution ab_db false true [51] (Some [Some box])) = [] /\
  param_bounds ab_db 50 = Some [AKey] /\ ~ can ab_db (fun _ => false) vec AKey /\ snd (type_args_substitution ab_db false true [50] (Some [Some vec])) = [].
Proof.
  cbn zeta. split; [reflexivity|]. split; [|split; [reflexivity|split; [reflexivity|split; [|reflexivity]]]].
  - intros C. inversion C as [t a P N| | | | |l keys vals args declared a E I F]; subst; [destruct P as [P|[P|[k P]]]; discriminate|]. destruct (F 40 Signer) as [X|X]; [now left|discriminate|]. cbn in X. inversion X as [t a P N| | | | |]; subst. destruct P as [P|[P|[k P]]]; discriminate.
  - intros C. inversion C as [t a P N| |t a N C'| | |]; subst; [destruct P as [P|[P|[k P]]]; discriminate|contradiction].
Qed.
(** struct W has store { x: signer } is not reported *)
Theorem field_store_refuted : ~ can ab_db (fun _ => false) Signer (needed AStore) /\ field_error ab_db [AStore] Signer = None /\ field_error ab_db [AKey] Signer = Some AStore.
Proof. split; [|split; reflexivity]. intros C. inversion C as [t a P N| | | | |]; subst. destruct P as [P|[P|[k P]]]; discriminate. Qed.
Example abilities_errors_example : snd (type_args_substitution ab_db false true [51; 50] (Some [Some Signer; Some (Integer U8)])) = [mkMissing 51 Signer [ACopy]; mkMissing 50 (Integer U8) [AKey]] /\
  plain (fun _ => false) ACopy Signer /\ ~ can ab_db (fun _ => false) Signer ACopy /\ can ab_db (fun _ => false) (Adt 2 [40] [Seq SVector TBool] [Seq SVector TBool]) ACopy.
Proof.
  split; [reflexivity|]. split; [apply p_signer|]. split.
  - intros C. inversion C as [t a P N| | | | |]; subst. destruct P as [P|[P|[k P]]]; discriminate.
  - apply (c_adt _ _ _ _ _ _ [ACopy; ADrop; AStore]); [reflexivity|now left|]. intros p t [E|[]]. inversion E; subst. right. apply c_vector; [discriminate|]. apply c_prim; [now left|discriminate].
Qed.
(** the variable for T of f<T: copy> is given the type signer; a field of type signer in a struct with drop and key *)
Example inferred_errors_example : ability_check ab_db (mkCtx false new_table new_table) (mkVar (Some 51) 7) Signer = CErr (EAbility [ACopy]) /\ field_error ab_db [ADrop; AKey] Signer = Some AStore /\
  plain (fun _ => false) (needed AKey) Signer /\ abilities ab_db Signer <> None.
Proof. split; [reflexivity|]. split; [reflexivity|]. split; [apply p_signer|discriminate]. Qed.
Print Assumptions type_read_as_named.
Print Assumptions function_type_read.
Print Assumptions explicit_type_arguments.
Print Assumptions inferred_type_arguments.
Print Assumptions own_type_argument_refuted.
Print Assumptions count_errors_exact.
Print Assumptions type_without_errors_read.
Print Assumptions call_count_errors_exact.
Print Assumptions enum_arguments_refuted.
Print Assumptions builtin_arguments_refuted.
Print Assumptions type_argument_errors_sound.
Print Assumptions type_argument_errors_partial.
Print Assumptions inferred_argument_errors_sound.
Print Assumptions field_errors_sound.
Print Assumptions field_errors_partial.
Print Assumptions type_argument_refuted.
Print Assumptions field_store_refuted.
