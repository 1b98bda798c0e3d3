(** Wrong numbers of arguments and missing fields are reported exactly (C65). *)
From Coq Require Import String.
From Verif Require Import Base SyntaxKind TreeSinkModel AddressModel FixModel OutlineModel InlayModel InlayProps CountModel.
Open Scope list_scope.

(** * Specification *)
(** the arguments of a call, each with its expression *)
Definition arguments (x l : nat * tree) (es : list (nat * tree)) : Prop :=
  node_of (kind_eqb VALUE_ARG_LIST) x = Some l /\ Forall2 (fun a e => node_of is_expr a = Some e) (nodes_of (kind_eqb VALUE_ARG) l) es.
(** how many arguments may be written *)
Inductive takes (rs : resolver) (x : nat * tree) : nat -> nat -> Prop :=
| takes_call : forall n, kind_of (snd x) = CALL_EXPR \/ kind_of (snd x) = APPLY_LEMMA -> callable_params rs (fst x) (snd x) = Some n -> takes rs x n n
| takes_method : forall n, kind_of (snd x) = METHOD_CALL_EXPR -> callable_params rs (fst x) (snd x) = Some (S n) -> takes rs x n n
| takes_predicate : forall n, kind_of (snd x) = BEHAVIOR_PREDICATE_EXPR -> predicate_params rs (fst x) (snd x) = Some n -> takes rs x n n
| takes_assert : forall i, kind_of (snd x) = ASSERT_MACRO_EXPR -> token_of IDENT x = Some i -> In (text_of (snd i)) [txt "assert"; txt "debug_assert"] -> takes rs x 1 6
| takes_compare : forall i, kind_of (snd x) = ASSERT_MACRO_EXPR -> token_of IDENT x = Some i -> In (text_of (snd i)) [txt "assert_eq"; txt "assert_ne"; txt "debug_assert_eq"; txt "debug_assert_ne"] -> takes rs x 2 7.
(** [a] is [b] without some of its elements *)
Inductive sublist : list text -> list text -> Prop :=
| sub_nil : sublist [] []
| sub_keep : forall x a b, sublist a b -> sublist (x :: a) (x :: b)
| sub_drop : forall x a b, sublist a b -> sublist a (x :: b).
(** the names a struct or variant declares *)
Definition declares (o : nat * tree) (ds : list text) : Prop :=
  exists l, field_list o = Some l /\ kind_of (snd l) = NAMED_FIELD_LIST /\ Forall2 (fun f d => exists n, node_of (kind_eqb NAME) f = Some n /\ d = name_string n) (nodes_of (kind_eqb NAMED_FIELD) l) ds.
(** what is missing: all the names declared and not provided, in the order of the declaration *)
Definition lacks (ds : list text) (provided : text -> Prop) (ms : list text) : Prop := sublist ms ds /\ forall d, In d ms <-> In d ds /\ ~ provided d.
Definition provides (f : nat * tree -> option text) (fs : list (nat * tree)) (n : text) : Prop := exists y, In y fs /\ f y = Some n.

(** * Arguments *)
Lemma text_eqb_spec : forall a b, text_eqb a b = true <-> a = b.
Proof. intros a b. unfold text_eqb. destruct (text_eq_dec a b); split; congruence. Qed.
Lemma all_exprs_spec : forall l es, all_exprs l = Some es <-> Forall2 (fun a e => node_of is_expr a = Some e) l es.
Proof.
  induction l as [|a l IH]; intros es; cbn [all_exprs]; [split; [intros E; injection E as <-; constructor|intros E; now inversion E]|]. split.
  - destruct (node_of is_expr a) as [e|] eqn:A; [|discriminate]. destruct (all_exprs l) as [r|]; [|discriminate]. cbn. intros E. injection E as <-. constructor; [exact A|]. now apply IH.
  - intros E. inversion E as [|a' e l' r A F]; subst. rewrite A. apply IH in F. now rewrite F.
Qed.
Lemma expected_spec : forall rs x min max, expected_counts rs x = Ok (Some (min, max)) <-> takes rs x min max.
Proof.
  intros rs x min max. unfold expected_counts. split.
  - destruct (kind_of (snd x)) eqn:K; try discriminate.
    all: try (destruct (callable_params rs (fst x) (snd x)) as [[|n]|] eqn:C; cbn [option_map]; intros E; try discriminate; injection E as <- <-; first [apply takes_call; [rewrite K; tauto|exact C]|apply takes_method; [exact K|exact C]]; fail).
    all: try (match goal with |- context[predicate_params] => idtac end; destruct (predicate_params rs (fst x) (snd x)) as [n|] eqn:C; cbn [option_map]; intros E; [injection E as <- <-; exact (takes_predicate rs x n K C)|discriminate E]).
    unfold assert_counts. destruct (token_of IDENT x) as [i|] eqn:I; [|discriminate]. cbv zeta.
    destruct (text_eqb (text_of (snd i)) (txt "assert") || text_eqb (text_of (snd i)) (txt "debug_assert")) eqn:A.
    { intros E. injection E as <- <-. apply (takes_assert rs x i K I). apply orb_true_iff in A. rewrite !text_eqb_spec in A. cbn [In]. intuition. }
    destruct (text_eqb (text_of (snd i)) (txt "assert_eq") || text_eqb (text_of (snd i)) (txt "debug_assert_eq")) eqn:B.
    { intros E. injection E as <- <-. apply (takes_compare rs x i K I). apply orb_true_iff in B. rewrite !text_eqb_spec in B. cbn [In]. intuition. }
    destruct (text_eqb (text_of (snd i)) (txt "assert_ne") || text_eqb (text_of (snd i)) (txt "debug_assert_ne")) eqn:C; [|discriminate].
    intros E. injection E as <- <-. apply (takes_compare rs x i K I). apply orb_true_iff in C. rewrite !text_eqb_spec in C. cbn [In]. intuition.
  - intros T. destruct T as [n [K|K] C|n K C|n K C|i K I M|i K I M]; rewrite K; try (rewrite C; reflexivity).
    + unfold assert_counts. rewrite I. destruct M as [<-|[<-|[]]]; reflexivity.
    + unfold assert_counts. rewrite I. destruct M as [<-|[<-|[<-|[<-|[]]]]]; reflexivity.
Qed.
Lemma takes_order : forall rs x min max, takes rs x min max -> min <= max.
Proof. intros rs x min max T. destruct T; lia. Qed.
(** a call with a wrong number of arguments gets one error, at the closing parenthesis if there are too few and at the first one too many otherwise; a right number gets none *)
Theorem arguments_exact : forall rs x l es min max, arguments x l es -> takes rs x min max ->
  let error r := Ok [mkDiagnostic r (ArgumentsNumber min max (List.length es))] in
  (min <= List.length es <= max -> check_value_arguments rs x = Ok []) /\
  (List.length es < min -> check_value_arguments rs x = error (match token_of R_PAREN l with Some p => range_of p | None => range_of l end)) /\
  (max < List.length es -> exists e, nth_error es max = Some e /\ check_value_arguments rs x = error (range_of e)).
Proof.
  intros rs x l es min max [Hl He] T. cbv zeta. pose proof (takes_order _ _ _ _ T) as O. apply all_exprs_spec in He. apply expected_spec in T. unfold check_value_arguments. rewrite Hl, He, T. cbn [bind]. cbv zeta.
  destruct (Nat.ltb_spec (List.length es) min) as [A|A].
  - repeat split; try lia; intros; first [lia|reflexivity].
  - destruct (Nat.ltb_spec max (List.length es)) as [B|B]; (split; [intros; first [lia|reflexivity]|split; [intros; lia|intros M; try lia]]).
    assert (N : exists e, nth_error es max = Some e) by (destruct (nth_error es max) as [e|] eqn:E; [now exists e|apply nth_error_None in E; lia]). destruct N as (e & N). exists e. split; [exact N|].
    apply nth_error_split in N. destruct N as (a & b & -> & <-). rewrite skipn_app, skipn_all, Nat.sub_diag. reflexivity.
Qed.
(** without all the arguments, or without knowing what is called, nothing is said *)
Theorem arguments_silent : forall rs x, 
  (forall l a, node_of (kind_eqb VALUE_ARG_LIST) x = Some l -> In a (nodes_of (kind_eqb VALUE_ARG) l) -> node_of is_expr a = None -> check_value_arguments rs x = Ok []) /\
  (kind_of (snd x) <> ASSERT_MACRO_EXPR -> callable_params rs (fst x) (snd x) = None -> predicate_params rs (fst x) (snd x) = None -> check_value_arguments rs x = Ok []).
Proof.
  intros rs x. split.
  - intros l a Hl I E. unfold check_value_arguments. rewrite Hl. destruct (all_exprs _) as [es|] eqn:F; [|reflexivity]. exfalso. apply all_exprs_spec in F.
    induction F as [|b e m r B _ IH]; [destruct I|]. destruct I as [->|I]; [congruence|]. now apply IH.
  - intros K C P. unfold check_value_arguments. destruct (node_of _ x) as [l|]; [|reflexivity]. destruct (all_exprs _) as [es|]; [|reflexivity].
    assert (E : expected_counts rs x = Ok None) by (unfold expected_counts; rewrite C, P; destruct (kind_of (snd x)); first [reflexivity|congruence]). now rewrite E.
Qed.
(** a panic needs a method without a receiver or an assertion of another name *)
Theorem arguments_panic : forall rs x, check_value_arguments rs x = Panic ->
  kind_of (snd x) = METHOD_CALL_EXPR /\ callable_params rs (fst x) (snd x) = Some 0 \/
  kind_of (snd x) = ASSERT_MACRO_EXPR /\ forall i, token_of IDENT x = Some i -> ~ In (text_of (snd i)) [txt "assert"; txt "debug_assert"; txt "assert_eq"; txt "assert_ne"; txt "debug_assert_eq"; txt "debug_assert_ne"].
Proof.
  intros rs x H. unfold check_value_arguments in H. destruct (node_of _ x) as [l|]; [|discriminate]. destruct (all_exprs _) as [es|]; [|discriminate]. destruct (expected_counts rs x) as [[[min max]|]|] eqn:E; cbn [bind] in H.
  - cbv zeta in H. destruct (_ <? _); [discriminate|]. destruct (_ <? _); discriminate.
  - discriminate.
  - unfold expected_counts in E. destruct (kind_of (snd x)) eqn:K; try discriminate.
    all: try (destruct (callable_params rs (fst x) (snd x)) as [[|n]|]; try discriminate; left; auto; fail).
    right. split; [reflexivity|]. intros i I M. unfold assert_counts in E. rewrite I in E. cbn [In] in M. destruct M as [M|[M|[M|[M|[M|[M|[]]]]]]]; rewrite <- M in E; discriminate E.
Qed.
Theorem arguments_located : forall rs x ds d, check_value_arguments rs x = Ok ds -> In d ds -> range_in (d_range d) (range_of x).
Proof.
  intros rs x ds d H I. unfold check_value_arguments in H. destruct (node_of _ x) as [l|] eqn:L; [|injection H as <-; destruct I]. pose proof (child_in _ _ (node_of_child _ _ _ L)) as Il.
  destruct (all_exprs _) as [es|] eqn:A; [|injection H as <-; destruct I]. destruct (expected_counts rs x) as [[[min max]|]|]; cbn [bind] in H; [|injection H as <-; destruct I|discriminate]. cbv zeta in H.
  destruct (_ <? min); [|destruct (max <? _); [|injection H as <-; destruct I]]; injection H as <-.
  - destruct I as [<-|[]]. cbn [d_range]. destruct (token_of R_PAREN l) as [p|] eqn:P; [|exact Il]. eapply range_in_trans; [apply child_in, (token_of_child _ _ _ P)|exact Il].
  - destruct (skipn max es) as [|e r] eqn:Sk; [destruct I|]. destruct I as [<-|[]]. cbn [d_range]. assert (Ie : In e es) by (rewrite <- (firstn_skipn max es), Sk; apply in_elt).
    apply all_exprs_spec in A. clear Sk. assert (Q : exists a, In a (nodes_of (kind_eqb VALUE_ARG) l) /\ node_of is_expr a = Some e).
    { induction A as [|a e' m r' E _ IH]; [destruct Ie|]. destruct Ie as [->|Ie]; [exists a; split; [now left|exact E]|]. destruct (IH Ie) as (b & B & F). exists b. split; [now right|exact F]. }
    destruct Q as (a & Ia & Ea). eapply range_in_trans; [apply child_in, (node_of_child _ _ _ Ea)|]. eapply range_in_trans; [apply child_in, (nodes_of_child _ _ _ Ia)|exact Il].
Qed.

(** * Fields *)
Lemma existsb_text : forall d l, existsb (text_eqb d) l = true <-> In d l.
Proof. intros d l. rewrite existsb_exists. split; [intros (y & I & E); apply text_eqb_spec in E; now subst|intros I; exists d; split; [exact I|now apply text_eqb_spec]]. Qed.
Lemma filter_names_spec : forall f fs n, In n (filter_names f fs) <-> provides f fs n.
Proof.
  intros f fs n. unfold provides. induction fs as [|y r IH]; cbn [filter_names]; [split; [intros []|intros (y & [] & _)]|]. destruct (f y) as [m|] eqn:E; cbn [In]; rewrite IH; split.
  - intros [->|(z & I & F)]; [exists y; auto|exists z; auto].
  - intros (z & [<-|I] & F); [left; congruence|right; now exists z].
  - intros (z & I & F); exists z; auto.
  - intros (z & [<-|I] & F); [congruence|now exists z].
Qed.
Lemma missing_spec : forall ds ps, lacks ds (fun n => In n ps) (missing ds ps).
Proof.
  intros ds ps. unfold lacks. induction ds as [|d r [A B]]; cbn [missing]; [split; [constructor|intros d; split; [intros []|intros [[] _]]]|]. destruct (existsb (text_eqb d) ps) eqn:E.
  - apply existsb_text in E. split; [now constructor|]. intros x. rewrite B. cbn [In]. split; [tauto|]. intros [[->|I] N]; [contradiction|auto].
  - assert (N : ~ In d ps) by (rewrite <- existsb_text; congruence). split; [now constructor|]. intros x. cbn [In]. rewrite B. split; [intros [->|[I M]]; auto|tauto].
Qed.
(** what is missing is determined *)
Lemma sublist_nil_l : forall ds, sublist [] ds.
Proof. induction ds; constructor; auto. Qed.
Lemma names_of_spec : forall l ds, names_of l = Ok ds <-> Forall2 (fun f d => exists n, node_of (kind_eqb NAME) f = Some n /\ d = name_string n) l ds.
Proof.
  induction l as [|f l IH]; intros ds; cbn [names_of]; [split; [intros E; injection E as <-; constructor|intros E; now inversion E]|]. split.
  - destruct (node_of (kind_eqb NAME) f) as [n|] eqn:N; [|discriminate]. destruct (names_of l) as [r|]; [|discriminate]. cbn [bind]. intros E. injection E as <-. constructor; [now exists n|]. now apply IH.
  - intros E. inversion E as [|f' d l' r (n & N & ->) F]; subst. rewrite N. apply IH in F. now rewrite F.
Qed.
Lemma declares_spec : forall o ds, declares o ds -> named_field_names o = Ok ds.
Proof. intros o ds (l & Hl & K & F). unfold named_field_names. rewrite Hl, K, kind_eqb_refl. now apply names_of_spec. Qed.
(** a literal gets an error with the names of the fields it lacks, and none if it lacks none *)
Theorem literal_fields_exact : forall rs x p o ds, node_of (kind_eqb PATH) x = Some p -> owner_of rs (fst p) (snd p) = Some o -> declares o ds ->
  exists ms, lacks ds (provides lit_field_name (fields_in STRUCT_LIT_FIELD_LIST STRUCT_LIT_FIELD x)) ms /\
    missing_fields_in_struct_lit rs x = Ok (match ms with [] => [] | _ => [mkDiagnostic (range_of p) (MissingLitFields ms)] end).
Proof.
  intros rs x p o ds P O D. apply declares_spec in D. unfold missing_fields_in_struct_lit. rewrite P, O, D. cbn [bind]. set (ps := filter_names lit_field_name (fields_in STRUCT_LIT_FIELD_LIST STRUCT_LIT_FIELD x)). exists (missing ds ps).
  split; [|now destruct (missing ds ps)]. destruct (missing_spec ds ps) as [A B]. split; [exact A|]. intros d. now rewrite B, <- (filter_names_spec lit_field_name).
Qed.
(** the same for patterns, unless they have two dots *)
Theorem pattern_fields_exact : forall rs x p o ds, node_of (kind_eqb PATH) x = Some p -> owner_of rs (fst p) (snd p) = Some o -> declares o ds ->
  (forall f, In f (fields_in STRUCT_PAT_FIELD_LIST STRUCT_PAT_FIELD x) -> node_of (kind_eqb REST_PAT) f = None) ->
  exists ms, lacks ds (provides pat_field_name (fields_in STRUCT_PAT_FIELD_LIST STRUCT_PAT_FIELD x)) ms /\
    missing_fields_in_struct_pat rs x = Ok (match ms with [] => [] | _ => [mkDiagnostic (range_of x) (MissingPatFields (kind_of (snd o)) ms)] end).
Proof.
  intros rs x p o ds P O D R. apply declares_spec in D. unfold missing_fields_in_struct_pat. replace (has_rest_pat x) with false.
  2:{ symmetry. unfold has_rest_pat. apply not_true_iff_false. rewrite existsb_exists. intros (f & I & E). now rewrite (R f I) in E. }
  rewrite P, O, D. cbn [bind]. set (ps := filter_names pat_field_name (fields_in STRUCT_PAT_FIELD_LIST STRUCT_PAT_FIELD x)). exists (missing ds ps).
  split; [|now destruct (missing ds ps)]. destruct (missing_spec ds ps) as [A B]. split; [exact A|]. intros d. now rewrite B, <- (filter_names_spec pat_field_name).
Qed.
Theorem rest_pattern_silent : forall rs x f, In f (fields_in STRUCT_PAT_FIELD_LIST STRUCT_PAT_FIELD x) -> node_of (kind_eqb REST_PAT) f <> None -> missing_fields_in_struct_pat rs x = Ok [].
Proof.
  intros rs x f I E. unfold missing_fields_in_struct_pat. replace (has_rest_pat x) with true; [reflexivity|]. symmetry. unfold has_rest_pat. rewrite existsb_exists. exists f. split; [exact I|]. now destruct (node_of _ f).
Qed.
(** a pattern with parentheses gets an error if it has fewer parts than there are fields *)
Theorem tuple_pattern_exact : forall rs x p o, node_of (kind_eqb PATH) x = Some p -> owner_of rs (fst p) (snd p) = Some o ->
  let ps := nodes_of is_pat x in
  missing_fields_in_tuple_struct_pat rs x = Ok [] \/ missing_fields_in_tuple_struct_pat rs x = Ok [mkDiagnostic (range_of x) (MissingTuplePatFields (kind_of (snd o)) (tuple_field_count o) (List.length ps))] /\
    List.length ps < tuple_field_count o /\ forall y, In y ps -> kind_of (snd y) <> REST_PAT.
Proof.
  intros rs x p o P O. cbv zeta. unfold missing_fields_in_tuple_struct_pat. destruct (existsb _ _) eqn:E; [now left|]. rewrite P, O. cbv zeta. destruct (Nat.ltb_spec (List.length (nodes_of is_pat x)) (tuple_field_count o)); [right|now left].
  split; [reflexivity|]. split; [assumption|]. intros y I K. assert (T : existsb (fun q => kind_eqb (kind_of (snd q)) REST_PAT) (nodes_of is_pat x) = true) by (apply existsb_exists; exists y; split; [exact I|now apply kind_eqb_spec]). congruence.
Qed.
Theorem tuple_pattern_found : forall rs x p o, node_of (kind_eqb PATH) x = Some p -> owner_of rs (fst p) (snd p) = Some o ->
  List.length (nodes_of is_pat x) < tuple_field_count o -> (forall y, In y (nodes_of is_pat x) -> kind_of (snd y) <> REST_PAT) ->
  missing_fields_in_tuple_struct_pat rs x = Ok [mkDiagnostic (range_of x) (MissingTuplePatFields (kind_of (snd o)) (tuple_field_count o) (List.length (nodes_of is_pat x)))].
Proof.
  intros rs x p o P O L R. unfold missing_fields_in_tuple_struct_pat. replace (existsb _ _) with false.
  2:{ symmetry. apply not_true_iff_false. rewrite existsb_exists. intros (y & I & E). apply kind_eqb_spec in E. now apply (R y I). }
  rewrite P, O. cbv zeta. apply Nat.ltb_lt in L. now rewrite L.
Qed.
(** * The names of fields *)
(** a path of one name *)
Definition one_name (e r : nat * tree) : Prop :=
  kind_of (snd e) = PATH_EXPR /\ exists p s, node_of (kind_eqb PATH) e = Some p /\ node_of (kind_eqb PATH_SEGMENT) p = Some s /\ node_of (kind_eqb PATH) p = None /\ node_of (kind_eqb NAME_REF) s = Some r.
Theorem literal_name : forall f n, lit_field_name f = Some n <->
  exists r, n = name_string r /\ (node_of (kind_eqb NAME_REF) f = Some r \/ node_of (kind_eqb NAME_REF) f = None /\ exists e, node_of is_expr f = Some e /\ one_name e r).
Proof.
  intros f n. unfold lit_field_name, one_name. split.
  - destruct (node_of (kind_eqb NAME_REF) f) as [r|]; [intros E; injection E as <-; exists r; auto|]. destruct (node_of is_expr f) as [e|]; [|discriminate]. destruct (kind_eqb (kind_of (snd e)) PATH_EXPR) eqn:K; [|discriminate]. apply kind_eqb_spec in K.
    destruct (node_of (kind_eqb PATH) e) as [p|] eqn:P; [|discriminate]. destruct (node_of (kind_eqb PATH_SEGMENT) p) as [s|] eqn:Sg; [|discriminate]. destruct (node_of (kind_eqb NAME_REF) s) as [r|] eqn:R; [|discriminate].
    destruct (node_of (kind_eqb PATH) p) as [q|] eqn:Q; [discriminate|]. intros E. injection E as <-. exists r. split; [reflexivity|]. right. split; [reflexivity|]. exists e. repeat split; auto. now exists p, s.
  - intros (r & -> & [->|(-> & e & -> & K & p & s & P & Sg & Q & R)]); [reflexivity|]. now rewrite K, kind_eqb_refl, P, Sg, R, Q.
Qed.
Theorem pattern_name : forall f n, pat_field_name f = Some n <->
  exists r, n = name_string r /\ (node_of (kind_eqb NAME_REF) f = Some r \/ node_of (kind_eqb NAME_REF) f = None /\ exists i, node_of (kind_eqb IDENT_PAT) f = Some i /\ node_of (kind_eqb NAME) i = Some r).
Proof.
  intros f n. unfold pat_field_name. split.
  - destruct (node_of (kind_eqb NAME_REF) f) as [r|]; [intros E; injection E as <-; exists r; auto|]. destruct (node_of (kind_eqb IDENT_PAT) f) as [i|]; [|discriminate]. destruct (node_of (kind_eqb NAME) i) as [r|] eqn:N; [|discriminate].
    cbn. intros E. injection E as <-. exists r. split; [reflexivity|]. right. split; [reflexivity|]. now exists i.
  - intros (r & -> & [->|(-> & i & -> & N)]); [reflexivity|]. now rewrite N.
Qed.
Theorem name_says : forall x i, token_of IDENT x = Some i -> name_string x = text_of (snd i).
Proof. intros x i E. unfold name_string. now rewrite E. Qed.
Theorem tuple_fields_counted : forall o l, field_list o = Some l ->
  (kind_of (snd l) = TUPLE_FIELD_LIST -> tuple_field_count o = List.length (filter (fun y => is_node (snd y) && kind_eqb TUPLE_FIELD (kind_of (snd y))) (children l))) /\ (kind_of (snd l) = NAMED_FIELD_LIST -> tuple_field_count o = 0).
Proof. intros o l E. unfold tuple_field_count. rewrite E. split; intros K; rewrite K; reflexivity. Qed.
Theorem pattern_kinds : forall k, is_pat k = true <-> k = IDENT_PAT \/ k = LITERAL_PAT \/ k = PAREN_PAT \/ k = PATH_PAT \/ k = RANGE_PAT \/ k = REST_PAT \/ k = STRUCT_PAT \/ k = TUPLE_PAT \/ k = TUPLE_STRUCT_PAT \/ k = UNIT_PAT \/ k = WILDCARD_PAT.
Proof.
  intros k. unfold is_pat, any_of. rewrite existsb_exists. split.
  - intros (y & I & E). apply kind_eqb_spec in E. subst y. cbn [In] in I. intuition congruence.
  - intros H. exists k. split; [cbn [In]; intuition congruence|apply kind_eqb_refl].
Qed.

(** all the fields written are read *)
Theorem fields_read : forall lk fk x f, In f (fields_in lk fk x) <-> exists l, node_of (kind_eqb lk) x = Some l /\ In f (children l) /\ is_node (snd f) = true /\ kind_of (snd f) = fk.
Proof.
  intros lk fk x f. unfold fields_in. destruct (node_of (kind_eqb lk) x) as [l|]; [|split; [intros []|intros (l & E & _); discriminate]]. unfold nodes_of. rewrite filter_In, andb_true_iff, kind_eqb_spec. split.
  - intros (I & N & K). exists l. repeat split; auto.
  - intros (l' & E & I & N & K). injection E as <-. auto.
Qed.
(** * Examples *)
Definition arg (s : string) : tree := TNode VALUE_ARG [TNode LITERAL [tok INT_NUMBER s]].
Definition call (k : kind) (name : string) (args : list tree) : tree := TNode k [tok IDENT name; TNode VALUE_ARG_LIST (tok L_PAREN "(" :: args ++ [tok R_PAREN ")"])].
Definition ex_struct : tree := TNode STRUCT [TNode NAMED_FIELD_LIST [TNode NAMED_FIELD [TNode NAME [tok IDENT "a"]]; TNode NAMED_FIELD [TNode NAME [tok IDENT "b"]]; TNode NAMED_FIELD [TNode NAME [tok IDENT "c"]]]].
Definition ex_tuple : tree := TNode STRUCT [TNode TUPLE_FIELD_LIST [TNode TUPLE_FIELD []; TNode TUPLE_FIELD []]].
Definition ex_rs (n : nat) (o : tree) : resolver := mkResolver (fun _ _ => Some n) (fun _ _ => None) (fun _ _ => Some (100, o)).
Definition ex_path : tree := TNode PATH [TNode PATH_SEGMENT [TNode NAME_REF [tok IDENT "S"]]].
Example too_few : check_value_arguments (ex_rs 2 ex_struct) (0, call CALL_EXPR "f" [arg "1"]) = Ok [mkDiagnostic (3, 4) (ArgumentsNumber 2 2 1)].
Proof. reflexivity. Qed.
Example right_number : check_value_arguments (ex_rs 2 ex_struct) (0, call METHOD_CALL_EXPR "f" [arg "1"]) = Ok [] /\ check_value_arguments (ex_rs 2 ex_struct) (0, call ASSERT_MACRO_EXPR "assert" [arg "1"; arg "2"]) = Ok [].
Proof. split; reflexivity. Qed.
Example arguments_hypotheses : exists l es, arguments (0, call CALL_EXPR "f" [arg "1"; arg "2"; arg "3"]) l es /\ takes (ex_rs 1 ex_struct) (0, call CALL_EXPR "f" [arg "1"; arg "2"; arg "3"]) 1 1 /\ List.length es = 3.
Proof. eexists _, _. split; [split; [reflexivity|repeat constructor]|]. split; [apply takes_call; [now left|reflexivity]|reflexivity]. Qed.
Example assert_eq_few : check_value_arguments (ex_rs 2 ex_struct) (0, call ASSERT_MACRO_EXPR "assert_eq" [arg "1"]) = Ok [mkDiagnostic (11, 12) (ArgumentsNumber 2 7 1)].
Proof. reflexivity. Qed.
(** only the first argument too many is marked *)
Theorem every_extra_marked_refuted : exists rs x l es e, arguments x l es /\ takes rs x 1 1 /\ nth_error es 2 = Some e /\ forall ds d, check_value_arguments rs x = Ok ds -> In d ds -> d_range d <> range_of e.
Proof.
  exists (ex_rs 1 ex_struct), (0, call CALL_EXPR "f" [arg "1"; arg "2"; arg "3"]). eexists _, _, _. split; [split; [reflexivity|repeat constructor]|]. split; [apply takes_call; [now left|reflexivity]|]. split; [reflexivity|].
  intros ds d E. vm_compute in E. injection E as <-. intros [<-|[]]. vm_compute. discriminate.
Qed.
(** [S { b, a: 1 }] lacks [c], [S { x::b }] lacks all *)
Definition lit (fs : list tree) : tree := TNode STRUCT_LIT [ex_path; TNode STRUCT_LIT_FIELD_LIST fs].
Definition short (s : string) : tree := TNode STRUCT_LIT_FIELD [TNode PATH_EXPR [TNode PATH [TNode PATH_SEGMENT [TNode NAME_REF [tok IDENT s]]]]].
Definition full (s : string) : tree := TNode STRUCT_LIT_FIELD [TNode NAME_REF [tok IDENT s]; tok COLON ":"; TNode LITERAL [tok INT_NUMBER "1"]].
Definition qualified (s : string) : tree := TNode STRUCT_LIT_FIELD [TNode PATH_EXPR [TNode PATH [TNode PATH [TNode PATH_SEGMENT [TNode NAME_REF [tok IDENT "x"]]]; TNode PATH_SEGMENT [TNode NAME_REF [tok IDENT s]]]]].
Example literal_example : missing_fields_in_struct_lit (ex_rs 0 ex_struct) (0, lit [short "b"; full "a"]) = Ok [mkDiagnostic (0, 1) (MissingLitFields [txt "c"])] /\
  missing_fields_in_struct_lit (ex_rs 0 ex_struct) (0, lit [qualified "b"]) = Ok [mkDiagnostic (0, 1) (MissingLitFields [txt "a"; txt "b"; txt "c"])] /\ missing_fields_in_struct_lit (ex_rs 0 ex_struct) (0, lit [short "b"; full "a"; short "c"]) = Ok [].
Proof. repeat split. Qed.
Example declares_example : declares (100, ex_struct) [txt "a"; txt "b"; txt "c"].
Proof. eexists. split; [reflexivity|]. split; [reflexivity|]. repeat (constructor; [eexists; split; reflexivity|]). constructor. Qed.
Definition pat (fs : list tree) : tree := TNode STRUCT_PAT [ex_path; TNode STRUCT_PAT_FIELD_LIST fs].
Definition short_pat (s : string) : tree := TNode STRUCT_PAT_FIELD [TNode IDENT_PAT [TNode NAME [tok IDENT s]]].
Example pattern_example : missing_fields_in_struct_pat (ex_rs 0 ex_struct) (0, pat [short_pat "b"]) = Ok [mkDiagnostic (0, 2) (MissingPatFields STRUCT [txt "a"; txt "c"])] /\
  missing_fields_in_struct_pat (ex_rs 0 ex_struct) (0, pat [short_pat "b"; TNode STRUCT_PAT_FIELD [TNode REST_PAT [tok DOT_DOT ".."]]]) = Ok [].
Proof. split; reflexivity. Qed.
Definition tuple_pat (n : nat) : tree := TNode TUPLE_STRUCT_PAT (ex_path :: repeat (TNode WILDCARD_PAT [tok UNDERSCORE "_"]) n).
Example tuple_example : missing_fields_in_tuple_struct_pat (ex_rs 0 ex_tuple) (0, tuple_pat 1) = Ok [mkDiagnostic (0, 2) (MissingTuplePatFields STRUCT 2 1)] /\ missing_fields_in_tuple_struct_pat (ex_rs 0 ex_tuple) (0, tuple_pat 2) = Ok [].
Proof. split; reflexivity. Qed.
(** a pattern with too many parts gets no error from this check *)
Theorem tuple_pattern_too_many_refuted : exists rs x p o, node_of (kind_eqb PATH) x = Some p /\ owner_of rs (fst p) (snd p) = Some o /\ tuple_field_count o < List.length (nodes_of is_pat x) /\
  (forall y, In y (nodes_of is_pat x) -> kind_of (snd y) <> REST_PAT) /\ missing_fields_in_tuple_struct_pat rs x = Ok [].
Proof.
  exists (ex_rs 0 ex_tuple), (0, tuple_pat 3). eexists _, _. split; [reflexivity|]. split; [reflexivity|]. split; [vm_compute; lia|]. split; [|reflexivity]. intros y I. vm_compute in I. destruct I as [<-|[<-|[<-|[]]]]; discriminate.
Qed.
(** a field given twice gets no error from this check *)
Example given_twice : missing_fields_in_struct_lit (ex_rs 0 ex_struct) (0, lit [full "a"; full "a"; full "b"; full "c"]) = Ok [].
Proof. reflexivity. Qed.

Print Assumptions arguments_exact.
Print Assumptions arguments_silent.
Print Assumptions arguments_panic.
Print Assumptions arguments_located.
Print Assumptions literal_fields_exact.
Print Assumptions pattern_fields_exact.
Print Assumptions rest_pattern_silent.
Print Assumptions tuple_pattern_exact.
Print Assumptions tuple_pattern_found.
Print Assumptions fields_read.
Print Assumptions literal_name.
Print Assumptions pattern_name.
Print Assumptions name_says.
Print Assumptions tuple_fields_counted.
Print Assumptions pattern_kinds.
Print Assumptions every_extra_marked_refuted.
Print Assumptions tuple_pattern_too_many_refuted.
