(** No assertion of the grammar fails in a release build on input without the patterns of [benign]. *)
From Coq Require Import String.
From Verif Require Import Base SyntaxKind ParserModel AddressModel TreeSinkModel TreeSinkSpec TreeSinkProps ParserSpec ParserProofs ParserProofs2 ParserProps GrammarDisc GrammarDiscAll GrammarTot PrecSpec PrecRun GrammarSafe GrammarBase GrammarModel.
Close Scope string_scope.
Close Scope N_scope.
Open Scope nat_scope.

Section Spec.
Variables (T : toks) (X : list text).
(** the tokens [i .. j-1] are a name, or names joined with [::] *)
Inductive names : nat -> nat -> Prop :=
| names_one : forall i, kind_at T i = IDENT -> names i (i + 1)
| names_more : forall i j, kind_at T i = IDENT -> kind_at T (i + 1) = COLON_COLON -> names (i + 2) j -> names i j.
Definition word (i : nat) (s : string) : Prop := kind_at T i = IDENT /\ reads X i s = true.
(** the patterns on which the parser panics, each ruled out *)
Record benign := {
  (** a token that reads [for] is a word *)
  b_for : forall i, reads X i "for" = true -> kind_at T i = IDENT;
  (** [module x::] with an address before the colons *)
  b_module : forall i, kind_at T i = MODULE_KW -> kind_at T (i + 2) = COLON_COLON -> kind_at T (i + 1) = INT_NUMBER \/ kind_at T (i + 1) = IDENT;
  (** [requires_of<f>(] and the like: a path between the angles, arguments after them *)
  b_behavior : forall i s, In s ["requires_of"; "aborts_of"; "ensures_of"; "result_of"]%string -> word i s -> kind_at T (i + 1) = L_ANGLE ->
    exists j, names (i + 2) j /\ kind_at T j = R_ANGLE /\ kind_at T (j + 1) = L_PAREN;
  (** after the first [proof], [apply lemma(] *)
  b_apply : forall i, proof_before T X i -> word i "apply" -> exists j, names (i + 1) j /\ kind_at T j = L_PAREN;
  (** [include A && ...], or no [&&] after the [include] *)
  b_include : forall i, word i "include" -> (exists j, names (i + 1) j /\ joined T j [AMP; AMP] = true) \/ (forall j, i < j -> joined T j [AMP; AMP] = false)
}.
End Spec.

Ltac uncover :=
  repeat match goal with
  | H : _ && _ = true |- _ => apply andb_prop in H; destruct H
  | H : kind_eqb (kind_at ?T ?i) ?k = true |- _ => destruct (kind_eqb_reflect (kind_at T i) k) as [?K|]; [clear H|discriminate H]
  end.
Ltac values e p B P H :=
  unfold t_and, t_or, t_not, t_kwi, is_path_start, is_behavior, is_at_quant_kw, is_literal_pat_start, on_function_modifiers_start, on_visibility_modifier_start, t_kwi in H;
  rewrite ?(v_at _ _ e p _ B P), ?(v_cur _ _ e p _ B P), ?(v_nth_at _ _ e p _ B P), ?(v_nth _ _ e p _ B P), ?(v_kw _ _ e p _ B P), ?(v_ts _ _ e p _ B P), ?(v_nth_ts _ _ e p _ B P), ?(v_raw _ _ e p _ B P) in H;
  cbn [parts spelling joined] in H.
Ltac learn O :=
  let e := fresh "e" in let p := fresh "p" in let B := fresh "B" in let P := fresh "P" in
  destruct O as (e & p & B & P & O); values e p B P O; try clear P; try clear B; try clear p; try clear e; uncover.
Ltac facts := repeat match goal with H : kind_at _ _ = _ |- _ => rewrite H | H : reads _ _ _ = true |- _ => rewrite H | H : touching _ _ = true |- _ => rewrite H end; try reflexivity; cbn [kind_eqb andb orb negb]; try reflexivity; auto.
Ltac holding :=
  let e := fresh "e" in let p := fresh "p" in let B := fresh "B" in let P := fresh "P" in
  intros e p B P;
  unfold t_and, t_or, t_not, t_kwi;
  rewrite ?(v_at _ _ e p _ B P), ?(v_cur _ _ e p _ B P), ?(v_nth_at _ _ e p _ B P), ?(v_nth _ _ e p _ B P), ?(v_kw _ _ e p _ B P), ?(v_ts _ _ e p _ B P), ?(v_nth_ts _ _ e p _ B P), ?(v_raw _ _ e p _ B P);
  cbn [parts spelling joined]; facts.

Ltac sok := first [reflexivity|assumption].
Ltac inplace := first [assumption | apply next_at; congruence].
Ltac sret := apply s_ret; cbn; try exact I; auto.
Create HintDb safe.
#[export] Hint Extern 1 (joined _ _ _ = true) => solve [cbn [parts spelling joined]; facts] : safe.
#[export] Hint Extern 1 (kind_at _ _ = _) => assumption : safe.
#[export] Hint Extern 1 (reads _ _ _ = true) => assumption : safe.
#[export] Hint Extern 1 (_ <= _) => lia : safe.
#[export] Hint Extern 1 (safe _ _ _ (error_and_bump _) _) => apply s_error_and_bump : safe.
#[export] Hint Extern 1 (safe _ _ _ (error_and_recover _ _) _) => apply s_error_and_recover : safe.
#[export] Hint Extern 1 (safe _ _ _ (wrap_with_error _ _) _) => apply s_wrap_with_error : safe.
#[export] Hint Extern 1 (safe _ _ _ (err _) _) => apply s_err : safe.
#[export] Hint Extern 1 (safe _ _ _ skip _) => apply s_skip : safe.
#[export] Hint Extern 1 (safe _ _ _ bump_any_ _) => apply s_bump_any : safe.
#[export] Hint Extern 1 (safe _ _ _ (remap _) _) => apply s_remap : safe.
#[export] Hint Extern 1 (safe _ _ _ (bump _) _) => apply s_bump; [sok|cbn [parts spelling joined]; facts] : safe.
#[export] Hint Extern 1 (safe _ _ _ (expect _) _) => apply s_expect; sok : safe.
#[export] Hint Extern 1 (safe _ _ _ (expect_msg _ _) _) => apply s_expect_msg; sok : safe.
#[export] Hint Extern 1 (safe _ _ _ (assert_ _) _) => apply s_assert; holding : safe.
#[export] Hint Extern 1 (safe _ _ _ wildcard_ident _) => apply s_wildcard_ident : safe.
Ltac satom := solve [eauto 4 with safe nocore].
Ltac ss :=
  cbv beta iota;
  lazymatch goal with
  | |- safe _ _ ?i (mbind ?m ?k) ?R =>
      lazymatch m with
      | ask _ => sask | at_ _ => sask | nth_at_ _ _ => sask | cur _ => sask | at_ts _ => sask | kwi _ => sask | cur_kw _ => sask | rs_test _ => sask
      | eat_ _ => apply s_bind_eat; [sok|let J := fresh "J" in intros J; cbn [parts spelling joined n_raw] in *; uncover; ss|intros _; ss]
      | outer_rs => apply (s_bind_read _ _ i (fun e _ => e_rs e)); intros ? _; ss
      | stmt_kind_ => apply (s_bind_read _ _ i (fun e _ => e_sk e)); intros ? _; ss
      | pos_ => apply (s_bind_read _ _ i (fun _ p => p_pos p)); intros ? _; ss
      | assert_ _ => eapply s_bind; [apply s_assert; holding|let j := fresh "j" in let q := fresh "q" in intros ? j ? q; cbv beta in q; subst j; ss]
      | bump _ => eapply s_bind; [satom|let j := fresh "j" in let q := fresh "q" in intros ? j ? q; cbv beta in q; subst j; cbn [n_raw]; ss]
      | err _ => eapply s_bind; [apply s_err|let j := fresh "j" in let q := fresh "q" in intros ? j ? q; cbv beta in q; subst j; ss]
      | skip => eapply s_bind; [apply s_skip|let j := fresh "j" in let q := fresh "q" in intros ? j ? q; cbv beta in q; subst j; ss]
      | remap _ => eapply s_bind; [apply s_remap|let j := fresh "j" in let H := fresh "H" in intros ? j ? H; cbv beta in H; try (specialize (H ltac:(inplace)); subst j); ss]
      | expect _ => sexpect
      | expect_msg _ _ => sexpect
      | node _ _ => sdeep
      | marked _ => sdeep
      | preceded _ _ => sdeep
      | delimited _ _ _ _ => sdeep
      | iterate_to_EOF _ _ _ => sdeep
      | loop _ _ => sdeep
      | mbind _ _ => sdeep
      | with_ts _ _ => sdeep
      | with_rs _ _ => sdeep
      | with_sk _ _ => sdeep
      | reset_rs _ => sdeep
      | checked _ => sdeep
      | plain _ => sdeep
      | done _ => sdeep
      | some_closing _ => sdeep
      | unary _ _ _ _ => sdeep
      | match _ with _ => _ end => sdeep
      | _ => eapply s_bind; [satom|let q := fresh "q" in intros ? ? ? q; cbv beta in q; try (match type of q with _ = _ => subst | any _ _ => clear q end); ss]
      end
  | |- safe _ _ _ (ret _) _ => sret
  | |- safe _ _ _ (let _ := _ in _) _ => cbv zeta; ss
  | |- safe _ _ _ (plain _) _ => unfold plain; ss
  | |- safe _ _ _ (done _) _ => unfold done; ss
  | |- safe _ _ _ (some_closing _) _ => unfold some_closing; ss
  | |- safe _ _ _ (unary _ _ _ _) _ => unfold unary; ss
  | |- safe _ _ _ (match ?x with _ => _ end) _ => destruct x; ss
  | |- safe _ _ _ (with_ts _ _) _ => apply s_ts; ss
  | |- safe _ _ _ (with_rs _ _) _ => apply s_rs; ss
  | |- safe _ _ _ (reset_rs _) _ => apply s_reset; ss
  | |- safe _ _ _ (with_sk SSpec _) _ => apply s_sk; [discriminate|]; ss
  | |- safe _ _ _ (with_sk SProof _) _ => apply s_sk; [auto|]; ss
  | |- safe _ _ _ (node _ _) any => apply s_node_any; ss
  | |- safe _ _ _ (marked _) any => apply s_marked_any; ss
  | |- safe _ _ _ (preceded _ _) any => apply s_preceded_any; ss
  | |- safe _ _ _ (delimited _ _ _ _) any => apply s_delimited; [sok|intros ? ?; ss]
  | |- safe _ _ _ (iterate_to_EOF _ _ _) any => apply s_iterate; intros ? ? ?; ss
  | |- safe _ _ _ (loop _ _) any => apply s_loop_any; intros ? ? ?; ss
  | |- safe _ _ _ (ask _) any => apply (s_read _ _ _ _); intros; exact I
  | |- safe _ _ _ (eat_ _) any => apply s_eat; [sok|intros; exact I|intros; exact I]
  | |- safe _ _ _ _ any => first [satom | eapply s_any; satom]
  | |- _ => first [satom | eapply s_weak; [satom|cbn; auto]]
  end
with sdeep := eapply (s_bind _ _ _ _ _ any); [ss|intros ? ? ? _; ss]
with sask := apply s_bind_ask; let b := fresh "b" in let O := fresh "O" in intros b O; destruct b; [learn O|]; ss
with sexpect := eapply s_bind; [satom|let b := fresh "b" in let H := fresh "H" in let j := fresh "j" in intros b j ? H; cbv beta in H; destruct b; [destruct H as [? ->]; cbn [n_raw parts spelling joined] in *; uncover|subst j]; ss].

Section All.
Variables (T : toks) (X : list text).
Hypothesis HL : length X = length T.
Hypothesis BN : benign T X.
Notation safe := (safe T X).
Notation K i k := (kind_at T i = k).

Lemma s_value_address : forall  i, K i INT_NUMBER -> safe i value_address (fun _ j => j = i + 1).
Proof. intros; unfold value_address; eapply s_bind; [satom|]; intros ? ? ? ->; eapply (s_bind _ _ _ _ _ (fun _ j => j = i + 1)); [eapply (s_node _ _ _ _ _ _ (fun j => j = i + 1)); [satom|cbn; auto]|intros ? ? ? ->; now apply s_ret]. Qed.
#[local] Hint Resolve s_value_address : safe.
Lemma s_any_address : forall  i, safe i any_address any.
Proof. intros; unfold any_address; ss. Qed.
#[local] Hint Resolve s_any_address | 5 : safe.
Lemma s_any_address_exact : forall i, K i INT_NUMBER \/ K i IDENT -> safe i any_address (fun _ j => j = i + 1).
Proof.
  intros i H. unfold any_address. apply s_bind_ask. intros b O. destruct b; [learn O; satom|]. apply s_bind_ask. intros b O2. destruct b.
  - learn O2. eapply (s_bind _ _ _ _ _ (fun _ j => j = i + 1)); [eapply (s_node _ _ _ _ _ _ (fun j => j = i + 1)); [satom|cbn; auto]|intros ? ? ? ->; now apply s_ret].
  - exfalso. destruct O as (e & p & B & P & O). destruct O2 as (e2 & p2 & B2 & P2 & O2). values e p B P O. values e2 p2 B2 P2 O2. destruct H as [H|H]; rewrite H in *; discriminate.
Qed.
Lemma s_name_or_recover : forall extra i, safe i (name_or_recover extra) any.
Proof. intros; unfold name_or_recover; ss. Qed.
#[local] Hint Resolve s_name_or_recover : safe.
Lemma s_name : forall  i, safe i name any.
Proof. intros; unfold name; ss. Qed.
#[local] Hint Resolve s_name : safe.
Lemma s_name_ref_or_recover : forall  i, safe i name_ref_or_recover any.
Proof. intros; unfold name_ref_or_recover; ss. Qed.
#[local] Hint Resolve s_name_ref_or_recover : safe.
Lemma s_name_ref : forall  i, safe i name_ref any.
Proof. intros; unfold name_ref; ss. Qed.
#[local] Hint Resolve s_name_ref | 5 : safe.
Lemma s_name_ref_exact : forall i, K i IDENT -> safe i name_ref (fun _ j => j = i + 1).
Proof.
  intros i H. unfold name_ref. apply s_bind_ask. intros b O. destruct b; [learn O|exfalso; destruct O as (e & p & B & P & O); values e p B P O; rewrite H in O; discriminate].
  eapply (s_bind _ _ _ _ _ (fun _ j => j = i + 1)); [eapply (s_node _ _ _ _ _ _ (fun j => j = i + 1)); [satom|cbn; auto]|intros ? ? ? ->; now apply s_ret].
Qed.
#[local] Hint Extern 0 (GrammarSafe.safe _ _ _ name_ref _) => apply s_name_ref_exact; assumption : safe.
#[local] Hint Extern 0 (GrammarSafe.safe _ _ _ any_address _) => apply s_any_address_exact; assumption : safe.
Lemma s_ability : forall  i, safe i ability any.
Proof. intros; unfold ability; ss. Qed.
#[local] Hint Resolve s_ability : safe.
Lemma s_abilities_list : forall  i, K i IDENT -> reads X i "has" = true -> safe i abilities_list any.
Proof. intros; unfold abilities_list; ss. Qed.
#[local] Hint Resolve s_abilities_list : safe.

(** what is assumed of the recursive calls *)
Record good (R : recs) : Prop := {
  g_path : forall i mode, safe i (r_path R mode) (fun _ j => forall k, names T i k -> kind_at T k <> COLON_COLON -> kind_at T k <> L_ANGLE -> j = k);
  g_type : forall i rs, safe i (r_type R rs) any;
  g_pattern : forall i, safe i (r_pattern R) any;
  g_expr : forall i r bp, 1 <= bp -> safe i (r_expr R r bp) any;
  g_stmt : forall i, safe i (r_stmt R) any;
  g_attr_item : forall i, safe i (r_attr_item R) any;
  g_use_speck : forall i b, safe i (r_use_speck R b) any
}.
Section Step.
Variable R : recs.
Hypothesis GR : good R.
Lemma s_path : forall i mode, safe i (path R mode) any. Proof. intros i mode. eapply s_any. apply (g_path R GR). Qed.
Lemma s_type_or_recover : forall i rs, safe i (type_or_recover R rs) any. Proof. apply (g_type R GR). Qed.
Lemma s_pattern : forall i, safe i (pattern R) any. Proof. apply (g_pattern R GR). Qed.
Lemma s_expr_bp : forall i r bp, 1 <= bp -> safe i (expr_bp R r bp) any. Proof. apply (g_expr R GR). Qed.
Lemma s_stmt : forall i, safe i (stmt R) any. Proof. apply (g_stmt R GR). Qed.
Lemma s_attr_item : forall i, safe i (attr_item R) any. Proof. apply (g_attr_item R GR). Qed.
Lemma s_use_speck : forall i b, safe i (use_speck R b) any. Proof. apply (g_use_speck R GR). Qed.
#[local] Hint Resolve s_path s_type_or_recover s_pattern s_expr_bp s_stmt s_attr_item s_use_speck : safe.

Lemma s_type_ : forall  i, safe i (type_ R) any.
Proof. intros; unfold type_; ss. Qed.
#[local] Hint Resolve s_type_ : safe.
Lemma s_path_type : forall  i, safe i (path_type R) any.
Proof. intros; unfold path_type; ss. Qed.
#[local] Hint Resolve s_path_type : safe.
Lemma s_type_annotation : forall  i, K i COLON -> safe i (type_annotation R) any.
Proof. intros; unfold type_annotation; ss. Qed.
#[local] Hint Resolve s_type_annotation : safe.
Lemma s_type_arg : forall b i, safe i (type_arg R b) any.
Proof. intros; unfold type_arg; ss. Qed.
#[local] Hint Resolve s_type_arg : safe.
Lemma s_opt_type_arg_list_for_type : forall  i, safe i (opt_type_arg_list_for_type R) any.
Proof. intros; unfold opt_type_arg_list_for_type; ss. Qed.
#[local] Hint Resolve s_opt_type_arg_list_for_type : safe.
Lemma s_type_args_rest : forall first i, safe i first (fun _ j => K j L_ANGLE) -> safe i (type_args_rest R first) any.
Proof. intros; unfold type_args_rest; eapply (s_bind _ _ _ _ _ any); [apply s_marked_any|intros; ss]; eapply s_bind; [eassumption|]; cbv beta; intros; ss. Qed.
#[local] Hint Resolve s_type_args_rest : safe.
Lemma s_opt_type_arg_list_for_expr : forall b i, safe i (opt_type_arg_list_for_expr R b) any.
Proof.
  intros b i. unfold opt_type_arg_list_for_expr. apply s_bind_ask. intros b1 O1. destruct b1; [learn O1; apply s_type_args_rest; eapply s_weak; [satom|cbn; intros; subst; assumption]|].
  apply s_bind_ask. intros b2 O2. destruct b2; [learn O2|ss]. apply s_bind_ask. intros b3 O3. destruct b3; [|ss]. apply s_type_args_rest. eapply s_weak; [satom|cbn; intros; subst; assumption].
Qed.
#[local] Hint Resolve s_opt_type_arg_list_for_expr : safe.
Lemma s_opt_path_type_arg_list : forall m i, safe i (opt_path_type_arg_list R m) any.
Proof. intros; unfold opt_path_type_arg_list; ss. Qed.
#[local] Hint Resolve s_opt_path_type_arg_list : safe.
Lemma s_path_segment : forall mode b i, safe i (path_segment R mode b) any.
Proof. intros; unfold path_segment; ss. Qed.
#[local] Hint Resolve s_path_segment : safe.
Lemma s_path_loop : forall mode c i, safe i (path_loop R mode c) any. Proof. intros. unfold path_loop. ss. Qed.
#[local] Hint Resolve s_path_loop : safe.
Lemma s_colon_ability_bound_list : forall  i, K i COLON -> safe i colon_ability_bound_list any.
Proof. intros; unfold colon_ability_bound_list; ss. Qed.
#[local] Hint Resolve s_colon_ability_bound_list : safe.
Lemma s_ability_bound_list : forall  i, safe i ability_bound_list any.
Proof. intros; unfold ability_bound_list; ss. Qed.
#[local] Hint Resolve s_ability_bound_list : safe.
Lemma s_ref_type : forall  i, K i AMP -> safe i (ref_type R) any.
Proof. intros; unfold ref_type; ss. Qed.
#[local] Hint Resolve s_ref_type : safe.
Lemma s_lambda_type : forall  i, K i PIPE -> safe i (lambda_type R) any.
Proof. intros; unfold lambda_type; ss. Qed.
#[local] Hint Resolve s_lambda_type : safe.
Lemma s_paren_or_tuple_or_unit_type : forall  i, K i L_PAREN -> safe i (paren_or_tuple_or_unit_type R) any.
Proof. intros; unfold paren_or_tuple_or_unit_type; ss. Qed.
#[local] Hint Resolve s_paren_or_tuple_or_unit_type : safe.
Lemma s_type_body : forall extra i, safe i (type_body R extra) any.
Proof. intros; unfold type_body; ss. Qed.
#[local] Hint Resolve s_type_body : safe.
Lemma s_type_param : forall  i, safe i type_param any.
Proof. intros; unfold type_param; ss. Qed.
#[local] Hint Resolve s_type_param : safe.
Lemma s_opt_type_param_list : forall  i, safe i opt_type_param_list any.
Proof. intros; unfold opt_type_param_list; ss. Qed.
#[local] Hint Resolve s_opt_type_param_list : safe.
Lemma s_attr_item_list : forall l r i, okk l = true -> okk r = true -> joined T i (parts l) = true -> safe i (attr_item_list R l r) any. Proof. intros; unfold attr_item_list; ss. Qed.
#[local] Hint Extern 3 (GrammarSafe.safe _ _ _ (attr_item_list _ _ _) _) => apply s_attr_item_list; [reflexivity|reflexivity|cbn [parts spelling joined]; facts] : safe.
Lemma s_attr : forall  i, K i POUND -> safe i (attr R) any.
Proof. intros; unfold attr; ss. Qed.
#[local] Hint Resolve s_attr : safe.
Lemma s_attrs : forall i, safe i (attrs R) any. Proof. intros. unfold attrs. ss. Qed.
#[local] Hint Resolve s_attrs : safe.
Lemma s_expr : forall  i, safe i (expr R) any.
Proof. intros; unfold expr; ss. Qed.
#[local] Hint Resolve s_expr : safe.
Lemma s_expect_expr : forall  i, safe i (expect_expr R) any.
Proof. intros; unfold expect_expr; ss. Qed.
#[local] Hint Resolve s_expect_expr : safe.
Lemma s_opt_initializer_expr : forall  i, safe i (opt_initializer_expr R) any.
Proof. intros; unfold opt_initializer_expr; ss. Qed.
#[local] Hint Resolve s_opt_initializer_expr : safe.
Lemma s_initializer_expr : forall  i, safe i (initializer_expr R) any.
Proof. intros; unfold initializer_expr; ss. Qed.
#[local] Hint Resolve s_initializer_expr : safe.
Lemma s_attr_item_body : forall  i, safe i (attr_item_body R) any.
Proof. intros; unfold attr_item_body; ss. Qed.
#[local] Hint Resolve s_attr_item_body : safe.
Lemma s_value_arg_list : forall  i, K i L_PAREN -> safe i (value_arg_list R) any.
Proof. intros; unfold value_arg_list; ss. Qed.
#[local] Hint Resolve s_value_arg_list : safe.
Lemma s_literal : forall  i, safe i literal any.
Proof. intros; unfold literal; ss. Qed.
#[local] Hint Resolve s_literal : safe.
Lemma s_literal_pat : forall  i, safe i literal_pat any.
Proof. intros; unfold literal_pat; ss. Qed.
#[local] Hint Resolve s_literal_pat : safe.
Lemma s_wildcard_pat : forall  i, K i UNDERSCORE -> safe i wildcard_pat any.
Proof. intros; unfold wildcard_pat; ss. Qed.
#[local] Hint Resolve s_wildcard_pat : safe.
Lemma s_ident_pat : forall  i, safe i ident_pat any.
Proof. intros; unfold ident_pat; ss. Qed.
#[local] Hint Resolve s_ident_pat : safe.
Lemma s_ident_pat_or_recover : forall  i, safe i ident_pat_or_recover any.
Proof. intros; unfold ident_pat_or_recover; ss. Qed.
#[local] Hint Resolve s_ident_pat_or_recover : safe.
Lemma s_tuple_pat_fields : forall  i, K i L_PAREN -> safe i (tuple_pat_fields R) any.
Proof. intros; unfold tuple_pat_fields; ss. Qed.
#[local] Hint Resolve s_tuple_pat_fields : safe.
Lemma s_struct_pat_field : forall  i, safe i (struct_pat_field R) any.
Proof. intros; unfold struct_pat_field; ss. Qed.
#[local] Hint Resolve s_struct_pat_field : safe.
Lemma s_struct_pat_field_list : forall  i, K i L_CURLY -> safe i (struct_pat_field_list R) any.
Proof. intros; unfold struct_pat_field_list; ss. Qed.
#[local] Hint Resolve s_struct_pat_field_list : safe.
Lemma s_path_pat : forall  i, safe i (path_pat R) any.
Proof. intros; unfold path_pat; ss. Qed.
#[local] Hint Resolve s_path_pat : safe.
Lemma s_tuple_or_unit_or_paren_pat : forall  i, K i L_PAREN -> safe i (tuple_or_unit_or_paren_pat R) any.
Proof. intros; unfold tuple_or_unit_or_paren_pat; ss. Qed.
#[local] Hint Resolve s_tuple_or_unit_or_paren_pat : safe.
Lemma s_pattern_body : forall  i, safe i (pattern_body R) any.
Proof. intros; unfold pattern_body; ss. Qed.
#[local] Hint Resolve s_pattern_body : safe.
Lemma s_param : forall  i, safe i (param R) any.
Proof. intros; unfold param; ss. Qed.
#[local] Hint Resolve s_param : safe.
Lemma s_fun_param_list : forall  i, K i L_PAREN -> safe i (fun_param_list R) any.
Proof. intros; unfold fun_param_list; ss. Qed.
#[local] Hint Resolve s_fun_param_list : safe.
Lemma s_lambda_param : forall  i, safe i (lambda_param R) any.
Proof. intros; unfold lambda_param; ss. Qed.
#[local] Hint Resolve s_lambda_param : safe.
Lemma s_lambda_param_list : forall  i, K i PIPE -> safe i (lambda_param_list R) any.
Proof. intros; unfold lambda_param_list; ss. Qed.
#[local] Hint Resolve s_lambda_param_list : safe.
Lemma s_stmt_list : forall  i, safe i (stmt_list R) any.
Proof. intros; unfold stmt_list; ss. Qed.
#[local] Hint Resolve s_stmt_list : safe.
Lemma s_block_expr : forall  i, K i L_CURLY -> safe i (block_expr R) any.
Proof. intros; unfold block_expr; ss. Qed.
#[local] Hint Resolve s_block_expr : safe.
Lemma s_unexpected_block : forall s i, K i L_CURLY -> safe i (unexpected_block R s) any.
Proof. intros; unfold unexpected_block; ss. Qed.
#[local] Hint Resolve s_unexpected_block : safe.
Lemma s_inline_expr : forall  i, kind_at T i <> L_CURLY -> safe i (inline_expr R) any.
Proof. intros; unfold inline_expr; eapply s_bind; [apply s_assert|intros; ss]; intros e p B P; unfold t_not; rewrite (v_at _ _ e p _ B P); cbn [parts spelling joined]; destruct (kind_eqb_reflect (kind_at T i) L_CURLY); [contradiction|reflexivity]. Qed.
#[local] Hint Resolve s_inline_expr : safe.
Lemma s_block_or_inline_expr : forall  i, safe i (block_or_inline_expr R) any.
Proof. intros; unfold block_or_inline_expr; apply s_bind_ask; intros b O; destruct b; [learn O; ss|]; apply s_inline_expr; destruct O as (e & p & B & P & O); values e p B P O; intros E; rewrite E in O; discriminate. Qed.
#[local] Hint Resolve s_block_or_inline_expr : safe.
Lemma s_spec_block_expr : forall  i, K i SPEC_KW -> safe i (spec_block_expr R) any.
Proof. intros; unfold spec_block_expr; ss. Qed.
#[local] Hint Resolve s_spec_block_expr : safe.
Lemma s_opt_spec_block_expr : forall  i, safe i (opt_spec_block_expr R) any.
Proof. intros; unfold opt_spec_block_expr; ss. Qed.
#[local] Hint Resolve s_opt_spec_block_expr : safe.
Lemma s_quant_binding : forall  i, safe i (quant_binding R) any.
Proof. intros; unfold quant_binding; ss. Qed.
#[local] Hint Resolve s_quant_binding : safe.
Lemma s_quant_binding_list : forall rs i, safe i (quant_binding_list R rs) any.
Proof. intros; unfold quant_binding_list; ss. Qed.
#[local] Hint Resolve s_quant_binding_list : safe.
Lemma s_quant_trigger_list : forall  i, K i L_CURLY -> safe i (quant_trigger_list R) any.
Proof. intros; unfold quant_trigger_list; ss. Qed.
#[local] Hint Resolve s_quant_trigger_list : safe.
Lemma s_opt_where_expr : forall  i, safe i (opt_where_expr R) any.
Proof. intros; unfold opt_where_expr; ss. Qed.
#[local] Hint Resolve s_opt_where_expr : safe.
Lemma s_weight : forall  i, K i L_BRACK -> safe i (weight R) any.
Proof. intros; unfold weight; ss. Qed.
#[local] Hint Resolve s_weight : safe.
Lemma s_quant_expr : forall kw k i, safe i (quant_expr R kw k) any.
Proof. intros; unfold quant_expr; ss. Qed.
#[local] Hint Resolve s_quant_expr : safe.
Lemma s_choose_expr : forall  i, safe i (choose_expr R) any.
Proof. intros; unfold choose_expr; ss. Qed.
#[local] Hint Resolve s_choose_expr : safe.
Lemma s_struct_lit_field_list : forall  i, K i L_CURLY -> safe i (struct_lit_field_list R) any.
Proof. intros; unfold struct_lit_field_list; ss. Qed.
#[local] Hint Resolve s_struct_lit_field_list : safe.
Lemma s_the_cm : forall i x, is_some x = true -> safe i (the_cm x) any. Proof. intros i [c|] E; [now apply s_ret|discriminate]. Qed.
Lemma s_marked_cm : forall {A} i (body : M (closing * A)), safe i body (fun x _ => ends (fst x) = true) -> safe i ('(c, _) <- marked body ;; the_cm c) any.
Proof. intros A i body H. eapply s_bind; [apply s_marked_ends; exact H|]. intros [c a] j _ E. now apply s_the_cm. Qed.

Lemma s_path_expr : forall  i, safe i (path_expr R) any.
Proof. intros; unfold path_expr; apply s_marked_cm; ss. Qed.
#[local] Hint Resolve s_path_expr : safe.
Lemma s_vector_lit_expr : forall  i, K i IDENT -> safe i (vector_lit_expr R) any.
Proof. intros; unfold vector_lit_expr; ss. Qed.
#[local] Hint Resolve s_vector_lit_expr : safe.
Lemma s_top_level_expr_in_stmt : forall  i, safe i (top_level_expr_in_stmt R) any.
Proof. intros; unfold top_level_expr_in_stmt; ss. Qed.
#[local] Hint Resolve s_top_level_expr_in_stmt : safe.
Lemma s_match_arm : forall  i, safe i (match_arm R) any.
Proof. intros; unfold match_arm; ss. Qed.
#[local] Hint Resolve s_match_arm : safe.
Lemma s_match_arm_list : forall  i, K i L_CURLY -> safe i (match_arm_list R) any.
Proof. intros; unfold match_arm_list; ss. Qed.
#[local] Hint Resolve s_match_arm_list : safe.
Lemma s_match_expr : forall  i, i < length T -> K (i + 1) L_PAREN -> safe i (match_expr R) any.
Proof. intros; unfold match_expr; ss. Qed.
#[local] Hint Resolve s_match_expr : safe.
Lemma s_assert_macro_expr : forall  i, K i IDENT -> K (i + 1) BANG -> safe i (assert_macro_expr R) any.
Proof. intros; unfold assert_macro_expr; ss. Qed.
#[local] Hint Resolve s_assert_macro_expr : safe.
Lemma s_paren_or_tuple_or_annotated_expr : forall  i, K i L_PAREN -> safe i (paren_or_tuple_or_annotated_expr R) any.
Proof. intros; unfold paren_or_tuple_or_annotated_expr; eapply s_bind; [satom|]; intros ? j ? q; cbv beta in q; subst j; apply s_marked_cm; eapply s_bind; [satom|]; intros ? j ? q; cbv beta in q; subst j; cbn [n_raw]; apply s_bind_ask; intros b O; destruct b; [learn O; ss|]; eapply (s_bind _ _ _ _ _ any); [ss|]; intros [[[o sc] se] sa] j _ _; eapply (s_bind _ _ _ _ _ any); [eapply s_any; satom|]; intros; now apply s_ret. Qed.
#[local] Hint Resolve s_paren_or_tuple_or_annotated_expr : safe.
Lemma s_condition : forall  i, safe i (condition R) any.
Proof. intros; unfold condition; ss. Qed.
#[local] Hint Resolve s_condition : safe.
Lemma s_if_expr : forall  i, K i IF_KW -> safe i (if_expr R) any.
Proof. intros; unfold if_expr; ss. Qed.
#[local] Hint Resolve s_if_expr : safe.
Lemma s_label_decl : forall  i, K i QUOTE_IDENT -> K (i + 1) COLON -> safe i label_decl any.
Proof. intros; unfold label_decl; ss. Qed.
#[local] Hint Resolve s_label_decl : safe.
Lemma s_loop_rest : forall  i, K i LOOP_KW -> safe i (loop_rest R) (fun k _ => ends k = true).
Proof. intros; unfold loop_rest; ss. Qed.
#[local] Hint Resolve s_loop_rest : safe.
Lemma s_for_condition : forall  i, safe i (for_condition R) any.
Proof. intros; unfold for_condition; ss. Qed.
#[local] Hint Resolve s_for_condition : safe.
Lemma s_for_rest : forall  i, K i IDENT -> reads X i "for" = true -> safe i (for_rest R) (fun k _ => ends k = true).
Proof. intros; unfold for_rest; ss. Qed.
#[local] Hint Resolve s_for_rest : safe.
Lemma s_while_rest : forall  i, K i WHILE_KW -> safe i (while_rest R) (fun k _ => ends k = true).
Proof. intros; unfold while_rest; ss. Qed.
#[local] Hint Resolve s_while_rest : safe.
Lemma s_with_marker : forall rest i, safe i rest (fun k _ => ends k = true) -> safe i (with_marker rest) any.
Proof. intros rest i H. unfold with_marker. apply s_marked_cm. eapply s_bind; [exact H|]. cbv beta. intros k j _ E. apply s_ret. exact E. Qed.
#[local] Hint Extern 2 (GrammarSafe.safe _ _ _ (with_marker _) _) => apply s_with_marker : safe.
Lemma s_opt_expr : forall  i, safe i (opt_expr R) any.
Proof. intros; unfold opt_expr; ss. Qed.
#[local] Hint Resolve s_opt_expr : safe.
Lemma s_opt_label : forall  i, safe i opt_label any.
Proof. intros; unfold opt_label; ss. Qed.
#[local] Hint Resolve s_opt_label : safe.
Lemma s_return_expr : forall  i, K i RETURN_KW -> safe i (return_expr R) any.
Proof. intros; unfold return_expr; ss. Qed.
#[local] Hint Resolve s_return_expr : safe.
Lemma s_abort_expr : forall  i, K i ABORT_KW -> safe i (abort_expr R) any.
Proof. intros; unfold abort_expr; ss. Qed.
#[local] Hint Resolve s_abort_expr : safe.
Lemma s_continue_expr : forall  i, K i CONTINUE_KW -> safe i continue_expr any.
Proof. intros; unfold continue_expr; ss. Qed.
#[local] Hint Resolve s_continue_expr : safe.
Lemma s_break_expr : forall  i, K i BREAK_KW -> safe i (break_expr R) any.
Proof. intros; unfold break_expr; ss. Qed.
#[local] Hint Resolve s_break_expr : safe.
Lemma s_labelled : forall i, K i QUOTE_IDENT -> K (i + 1) COLON -> safe i (labelled R) any.
Proof.
  intros i K1 K2. unfold labelled. eapply (s_bind _ _ _ _ _ (fun x _ => is_some (fst x) = true)).
  - apply s_marked_ends. eapply s_bind; [satom|]. intros ? j ? _. cbv beta. apply s_bind_ask. intros b O. destruct b; [learn O|].
    { eapply s_bind; [apply s_loop_rest; assumption|]. cbv beta. intros k j2 _ E. apply s_ret. exact E. }
    apply s_bind_ask. intros b O2. destruct b; [learn O2|].
    { eapply s_bind; [apply s_for_rest; assumption|]. cbv beta. intros k j2 _ E. apply s_ret. exact E. }
    apply s_bind_ask. intros b O3. destruct b; [learn O3|].
    { eapply s_bind; [apply s_while_rest; assumption|]. cbv beta. intros k j2 _ E. apply s_ret. exact E. }
    eapply s_bind; [satom|]. intros. now apply s_ret.
  - intros [c ok] j _ E. cbn [fst] in E. destruct c; [|discriminate]. ss.
Qed.
#[local] Hint Resolve s_labelled : safe.
Lemma reads_in : forall i s, reads X i s = true -> i < length T.
Proof. intros i s H. unfold reads in H. apply andb_prop in H. destruct H as [H _]. apply Nat.ltb_lt in H. now rewrite <- HL. Qed.
Lemma s_atom_rest : forall i, safe i (atom_rest R) any.
Proof.
  intros i. unfold atom_rest. apply s_bind_ask. intros b O. destruct b.
  { assert (H : K i IDENT /\ K (i + 1) BANG).
    { destruct O as (e & p & B & P & O). unfold is_assert_ident in O. values e p B P O. apply andb_prop in O. destruct O as [O1 O2]. uncover. split; auto.
      destruct (kind_eqb_reflect (kind_at T i) IDENT); auto; discriminate. }
    destruct H. ss. }
  clear O. apply s_bind_ask. intros b O. destruct b.
  { learn O. pose proof (b_for _ _ BN _ H). ss. }
  clear O. ss.
Qed.
#[local] Hint Resolve s_atom_rest : safe.
Lemma s_atom_expr : forall i, safe i (atom_expr R) any.
Proof.
  intros i. unfold atom_expr. eapply s_bind; [satom|]. intros l j _ _. destruct l; [ss|]. apply s_bind_ask. intros b O. destruct b; [learn O; ss|]. clear O.
  apply s_bind_ask. intros b O. destruct b; [|ss]. learn O. pose proof (reads_in _ _ H). ss.
Qed.
#[local] Hint Resolve s_atom_expr : safe.
Lemma s_call_expr : forall c i, K i L_PAREN -> safe i (call_expr R c) any.
Proof. intros; unfold call_expr; ss. Qed.
#[local] Hint Resolve s_call_expr : safe.
Lemma s_index_expr : forall c i, K i L_BRACK -> safe i (index_expr R c) any.
Proof. intros; unfold index_expr; ss. Qed.
#[local] Hint Resolve s_index_expr : safe.
Lemma s_postfix_dot_expr : forall c i, K i DOT -> safe i (postfix_dot_expr R c) any.
Proof. intros; unfold postfix_dot_expr; ss. Qed.
#[local] Hint Resolve s_postfix_dot_expr : safe.
Lemma s_postfix_expr : forall s i, safe i (postfix_expr R s) any.
Proof. intros s i. unfold postfix_expr. apply s_loop_any. clear s. intros [[c bl] allow] j _. ss. Qed.
#[local] Hint Resolve s_postfix_expr : safe.
Lemma s_is_expr : forall c i, safe i (is_expr R c) any.
Proof. intros; unfold is_expr; ss. Qed.
#[local] Hint Resolve s_is_expr : safe.
Lemma s_cast_expr : forall c i, K i AS_KW -> safe i (cast_expr R c) any.
Proof. intros; unfold cast_expr; ss. Qed.
#[local] Hint Resolve s_cast_expr : safe.

(** ** Exact ends of paths *)
Lemma names_ident : forall i j, names T i j -> K i IDENT. Proof. intros i j H. destruct H; assumption. Qed.
Ltac refute O := exfalso; let e := fresh "e" in let p := fresh "p" in let B := fresh "B" in let P := fresh "P" in destruct O as (e & p & B & P & O); values e p B P O; repeat match goal with H : kind_at _ _ = _ |- _ => rewrite H in O end; discriminate.
(** where the path itself ends *)
Lemma s_path_exact : forall mode i j, names T i j -> kind_at T j <> COLON_COLON -> kind_at T j <> L_ANGLE -> safe i (path R mode) (fun _ k => k = j).
Proof. intros mode i j H N1 N2. eapply s_weak; [apply (g_path R GR)|]. cbv beta. auto. Qed.
Lemma s_path_type_exact : forall i j, names T i j -> kind_at T j <> COLON_COLON -> kind_at T j <> L_ANGLE -> safe i (path_type R) (fun _ k => k = j).
Proof.
  intros i j H N1 N2. pose proof (names_ident _ _ H) as KI. unfold path_type. apply s_bind_ask. intros b O. destruct b; [clear O|refute O].
  eapply s_bind; [eapply (s_marked _ _ _ _ (fun _ _ k => k = j))|cbv beta; intros [c b] k _ ->; now apply s_ret].
  eapply s_bind; [apply (s_path_exact _ i j); auto|]. intros b k _ ->. destruct b; apply s_ret; reflexivity.
Qed.
Lemma s_type_arg_exact : forall i j, names T i j -> kind_at T j <> COLON_COLON -> kind_at T j <> L_ANGLE -> safe i (type_arg R false) (fun b k => b = true /\ k = j).
Proof.
  intros i j H N1 N2. pose proof (names_ident _ _ H) as KI. unfold type_arg. eapply s_bind; [eapply (s_marked _ _ _ _ (fun _ b k => b = true /\ k = j))|cbv beta; intros [c b] k _ [E ->]; apply s_ret; auto].
  apply s_bind_ask. intros b O. destruct b; [clear O|refute O]. eapply s_bind; [now apply (s_path_type_exact i j)|]. intros b k _ ->. apply s_ret. cbn. auto.
Qed.
Lemma s_angles_exact : forall i j, K i L_ANGLE -> names T (i + 1) j -> K j R_ANGLE -> safe i (opt_type_arg_list_for_expr R false) (fun _ k => k = j + 1).
Proof.
  intros i j K1 H K2. pose proof (names_ident _ _ H) as KI. unfold opt_type_arg_list_for_expr. apply s_bind_ask. intros b O. destruct b; [refute O|clear O]. apply s_bind_ask. intros b O. destruct b; [clear O|refute O].
  apply s_bind_ask. intros b O. destruct b; [clear O|exfalso; destruct O as (e & p & B & P & O); discriminate].
  unfold type_args_rest. eapply s_bind; [eapply (s_marked _ _ _ _ (fun _ _ k => k = j + 1))|cbv beta; intros [c b] k _ ->; now apply s_ret].
  eapply s_bind; [apply s_skip|]. intros ? k _ ->. eapply s_bind; [satom|]. intros ? k _ ->. cbn [n_raw].
  eapply (s_bind _ _ _ _ _ (fun he k => he = false /\ k = j)).
  - apply s_iterate_once; [rewrite KI; reflexivity|]. cbv beta. eapply s_bind; [apply (s_type_arg_exact (i + 1) j); auto; rewrite K2; discriminate|]. intros b k _ [-> ->]. cbn [negb].
    apply s_bind_eat; [reflexivity|cbn [parts spelling joined]; rewrite K2; discriminate|]. intros _. apply s_bind_ask. intros b O. destruct b; [refute O|]. apply s_ret. cbn. auto.
  - intros he k _ [-> ->]. apply s_bind_eat; [reflexivity| |cbn [parts spelling joined]; rewrite K2; discriminate]. intros _. apply s_ret. reflexivity.
Qed.
Lemma s_behavior_predicate : forall i s, In s ["requires_of"; "aborts_of"; "ensures_of"; "result_of"]%string -> word T X i s -> K (i + 1) L_ANGLE -> safe i (behavior_predicate R) any.
Proof.
  intros i s I1 W KL. destruct (b_behavior _ _ BN i s I1 W KL) as (j & N & K1 & K2). destruct W as [KI _]. unfold behavior_predicate. apply s_node_any. eapply s_bind; [satom|]. intros ? k _ ->. cbn [n_raw].
  eapply s_bind; [eapply s_angles_exact; eauto; rewrite <- Nat.add_assoc; exact N|]. intros ? k _ ->. ss.
Qed.
Lemma s_lhs : forall r i, safe i (lhs R r) any.
Proof.
  intros r i. unfold lhs. apply s_bind_ask. intros b O. destruct b; [learn O; ss|]. clear O. apply s_bind_ask. intros b O. destruct b; [learn O; ss|]. clear O.
  apply s_bind_ask. intros b O. destruct b.
  { apply s_bind_ask. intros b O1. destruct b; [learn O1; ss|]. apply s_bind_ask. intros b O2. destruct b; [learn O2; ss|]. apply s_bind_ask. intros b O3. destruct b; [learn O3; ss|]. exfalso.
    destruct O as (e & p & B & P & O). destruct O1 as (e1 & p1 & B1 & P1 & O1). destruct O2 as (e2 & p2 & B2 & P2 & O2). destruct O3 as (e3 & p3 & B3 & P3 & O3).
    values e p B P O. values e1 p1 B1 P1 O1. values e2 p2 B2 P2 O2. values e3 p3 B3 P3 O3. destruct (kind_eqb (kind_at T i) IDENT); [|discriminate]. cbn [andb] in *. rewrite O1, O2, O3 in O. discriminate. }
  clear O. do 6 (apply s_bind_ask; intros b O; destruct b; [learn O; ss|]; clear O).
  apply (s_bind_read _ _ i (fun e _ => e_sk e)). intros sk _. apply s_bind_ask. intros b O. destruct b; [|clear O; ss].
  assert (H : exists s, In s ["requires_of"; "aborts_of"; "ensures_of"; "result_of"]%string /\ word T X i s /\ K (i + 1) L_ANGLE).
  { destruct O as (e & p & B & P & O). values e p B P O. apply andb_prop in O. destruct O as [_ O]. apply andb_prop in O. destruct O as [O1 O2]. uncover. unfold word.
    repeat (apply orb_prop in O1; destruct O1 as [O1|O1]); uncover; eexists; (split; [|split; [split; [eassumption|eassumption]|assumption]]); cbn; tauto. }
  destruct H as (s & I1 & W & KL). unfold plain. eapply (s_bind _ _ _ _ _ any); [eapply s_behavior_predicate; eauto|]. intros. now apply s_ret.
Qed.
#[local] Hint Resolve s_lhs : safe.
Lemma op_here : forall p, 1 <= fst (op_of p) -> nth_at p 0 (snd (op_of p)) = true.
Proof.
  intros p H. unfold op_of in *. assert (C : forall k, spelling k = None -> current p = k -> nth_at p 0 k = true).
  { intros k S E. rewrite nth_at_joined, Nat.add_0_r. unfold parts. rewrite S. cbn [joined]. rewrite <- cur_at, E. apply kind_eqb_refl. }
  destruct (current p) eqn:E; cbn in H; try lia; cbn [fst snd]; repeat match goal with |- context [if ?b then _ else _] => destruct b eqn:?; cbn [fst snd] end; auto.
Qed.
Lemma s_expr_loop : forall r bp c i, 1 <= bp -> safe i (expr_loop R r bp c) any.
Proof.
  intros r bp c i L. unfold expr_loop. apply s_loop_any. clear c. intros c k _. clear i. rename k into i. apply s_bind_ask. intros is_range _.
  apply (s_bind_read _ _ i (fun e p => if t_cur IDENT e p && t_kw "is" e p then (2, IS_KW) else op_of p)). intros [op_bp op] HO. destruct (Nat.ltb_spec op_bp bp) as [|LB]; [ss|].
  apply s_bind_ask. intros b O. destruct b; [learn O; ss|]. clear O. apply s_bind_ask. intros b O. destruct b; [learn O; ss|].
  assert (J : joined T i (parts op) = true /\ okk op = true).
  { destruct O as (e1 & p1 & B1 & P1 & O). values e1 p1 B1 P1 O. destruct HO as (e & p & B & P & HO). rewrite (v_cur _ _ e p _ B P), (v_kw _ _ e p _ B P), O in HO. pose proof (op_here p) as OH. pose proof (op_okk p) as OK. rewrite HO in OH, OK. cbn [fst snd] in *.
    split; auto. rewrite <- (v_raw0 _ _ e p i B P). apply OH. lia. }
  destruct J as [J K]. eapply (s_bind _ _ _ _ _ any); [apply s_preceded_any|intros [c' stop] j _ _; ss]. eapply s_bind; [now apply s_bump|]. intros ? j _ _. ss.
Qed.
#[local] Hint Resolve s_expr_loop : safe.
Lemma s_expr_bp_body : forall r bp i, 1 <= bp -> safe i (expr_bp_body R r bp) any.
Proof.
  intros r bp i L. unfold expr_bp_body. eapply (s_bind _ _ _ _ _ any); [ss|]. intros [c bl] j _ _. destruct c; [|ss]. apply (s_bind_read _ _ j (fun e p => if t_cur IDENT e p && t_kw "is" e p then (2, IS_KW) else op_of p)). intros [op_bp op] _. ss.
Qed.

Lemma s_opt_predicate_property_list : forall  i, safe i opt_predicate_property_list any.
Proof. intros; unfold opt_predicate_property_list; ss. Qed.
#[local] Hint Resolve s_opt_predicate_property_list : safe.
Lemma s_no_properties : forall i, K i IDENT -> safe i opt_predicate_property_list (fun _ j => j = i).
Proof. intros i KI. unfold opt_predicate_property_list. apply s_bind_ask. intros b O. destruct b; [refute O|]. apply s_skip. Qed.
Lemma s_predicate_rest : forall kw i, safe i (predicate_rest R kw) any.
Proof. intros; unfold predicate_rest; ss. Qed.
#[local] Hint Resolve s_predicate_rest : safe.
Lemma s_condition_predicate : forall  i, safe i (condition_predicate R) any.
Proof. intros; unfold condition_predicate; ss. Qed.
#[local] Hint Resolve s_condition_predicate : safe.
Lemma s_aborts_if_predicate : forall  i, safe i (aborts_if_predicate R) any.
Proof. intros; unfold aborts_if_predicate; ss. Qed.
#[local] Hint Resolve s_aborts_if_predicate : safe.
Lemma s_opt_emits_condition : forall  i, safe i (opt_emits_condition R) any.
Proof. intros; unfold opt_emits_condition; ss. Qed.
#[local] Hint Resolve s_opt_emits_condition : safe.
Lemma s_emits_predicate : forall  i, safe i (emits_predicate R) any.
Proof. intros; unfold emits_predicate; ss. Qed.
#[local] Hint Resolve s_emits_predicate : safe.
Lemma s_invariant_predicate : forall  i, safe i (invariant_predicate R) any.
Proof. intros; unfold invariant_predicate; ss. Qed.
#[local] Hint Resolve s_invariant_predicate : safe.
Lemma s_aborts_with_predicate : forall  i, safe i (aborts_with_predicate R) any.
Proof. intros; unfold aborts_with_predicate; ss. Qed.
#[local] Hint Resolve s_aborts_with_predicate : safe.
Lemma s_axiom_predicate : forall  i, safe i (axiom_predicate R) any.
Proof. intros; unfold axiom_predicate; ss. Qed.
#[local] Hint Resolve s_axiom_predicate : safe.
Lemma s_spec_predicate : forall  i, safe i (spec_predicate R) any.
Proof. intros; unfold spec_predicate; ss. Qed.
#[local] Hint Resolve s_spec_predicate : safe.
Lemma s_update_stmt : forall  i, safe i (update_stmt R) any.
Proof. intros; unfold update_stmt; ss. Qed.
#[local] Hint Resolve s_update_stmt : safe.
Lemma s_pragma_stmt : forall  i, safe i (pragma_stmt R) any.
Proof. intros; unfold pragma_stmt; ss. Qed.
#[local] Hint Resolve s_pragma_stmt : safe.
Lemma s_schema_field : forall  i, safe i (schema_field R) any.
Proof. intros; unfold schema_field; ss. Qed.
#[local] Hint Resolve s_schema_field : safe.
Lemma s_global_variable : forall  i, safe i (global_variable R) any.
Proof. intros; unfold global_variable; ss. Qed.
#[local] Hint Resolve s_global_variable : safe.
Lemma s_schema_lit : forall  i, safe i (schema_lit R) any.
Proof. intros; unfold schema_lit; ss. Qed.
#[local] Hint Resolve s_schema_lit : safe.
Lemma s_inner_expr : forall bp i, 1 <= bp -> safe i (inner_expr R bp) any.
Proof. intros; unfold inner_expr; ss. Qed.
#[local] Hint Resolve s_inner_expr : safe.
Lemma s_include_if_else_expr : forall  i, K i IF_KW -> safe i (include_if_else_expr R) any.
Proof. intros; unfold include_if_else_expr; ss. Qed.
#[local] Hint Resolve s_include_if_else_expr : safe.
Lemma s_schema_lit_exact : forall i j, names T i j -> K j AMP -> safe i (schema_lit R) (fun _ k => k = j).
Proof.
  intros i j H KJ. unfold schema_lit. eapply (s_bind _ _ _ _ _ (fun _ k => k = j)); [|intros ? k _ ->; apply s_skip]. eapply (s_node _ _ _ _ _ (fun _ k => k = j) (fun k => k = j)); [|auto].
  eapply s_bind; [apply (s_path_exact _ i j); auto; rewrite KJ; discriminate|]. intros ? k _ ->. apply s_bind_ask. intros b O. destruct b; [refute O|]. apply s_skip.
Qed.
(** the two kinds of input on which the lookahead agrees with what is then parsed *)
Lemma s_include_schema_expr : forall i, (exists j, names T i j /\ joined T j [AMP; AMP] = true) \/ (forall j, i <= j -> joined T j [AMP; AMP] = false) -> safe i (include_schema_expr R) any.
Proof.
  intros i H. unfold include_schema_expr. apply s_bind_ask. intros b O. destruct b; [learn O; ss|]. clear O.
  eapply (s_bind _ _ _ _ _ (fun go j => go = true -> j = i)).
  { apply s_checked. eapply s_bind; [satom|]. intros [c|] j _ _; [|apply s_ret; discriminate]. apply s_bind_ask. intros b O. destruct b; [learn O|apply s_ret; auto]. eapply (s_bind _ _ _ _ _ any); [ss|]. intros. apply s_ret. discriminate. }
  intros go j _ G. destruct go; cbn [negb]; [|ss]. rewrite (G eq_refl). clear G j.
  eapply (s_bind _ _ _ _ _ (fun r j => match r with Some true => j = i /\ exists k, i <= k /\ joined T k [AMP; AMP] = true | _ => True end)).
  { apply s_checked. eapply s_bind; [satom|]. intros [c|] j LJ _; [|apply s_ret; exact I]. apply s_bind_ask. intros b O. apply s_ret. cbn [fst snd]. destruct b; [|exact I]. split; auto. exists j. split; auto.
    destruct O as (e & p & B & P & O). rewrite (v_at _ _ e p _ B P) in O. exact O. }
  intros [[|]|] j _ Q; [|ss|ss]. destruct Q as (-> & k & LK & JK). destruct H as [(j & N & J)|H]; [|rewrite (H k LK) in JK; discriminate].
  assert (KJ : K j AMP) by (cbn [joined] in J; uncover; assumption).
  eapply (s_bind _ _ _ _ _ any); [apply s_node_any|intros; ss]. eapply s_bind; [eapply s_schema_lit_exact; eauto|]. intros ? k2 _ ->. apply s_bind_ask. intros b O. destruct b.
  - eapply s_bind; [apply s_bump; [reflexivity|exact J]|]. intros ? k3 _ _. ss.
  - exfalso. destruct O as (e & p & B & P & O). rewrite (v_at _ _ e p _ B P) in O. change (parts AMP_AMP) with [AMP; AMP] in O. congruence.
Qed.
Lemma s_include_schema : forall i, safe i (include_schema R) any.
Proof.
  intros i. unfold include_schema. apply s_bind_ask. intros b O. destruct b; [learn O|ss]. eapply (s_bind _ _ _ _ _ any); [apply s_node_any|intros; ss]. eapply s_bind; [apply s_remap|]. intros ? j _ E. specialize (E ltac:(inplace)). subst j.
  destruct (b_include _ _ BN i ltac:(split; assumption)) as [(j & N & J)|NO].
  - pose proof (names_ident _ _ N) as KI. eapply s_bind; [apply s_no_properties; exact KI|]. intros ? k _ ->. eapply s_bind; [apply s_include_schema_expr; left; eauto|]. intros. ss.
  - eapply s_bind; [satom|]. intros ? k L _. eapply s_bind; [apply s_include_schema_expr; right; intros m Lm; apply NO; lia|]. intros. ss.
Qed.
#[local] Hint Resolve s_include_schema : safe.
Lemma s_opt_wildcard_pattern_modifier : forall  i, safe i opt_wildcard_pattern_modifier any.
Proof. intros; unfold opt_wildcard_pattern_modifier; ss. Qed.
#[local] Hint Resolve s_opt_wildcard_pattern_modifier : safe.
Lemma s_wildcard_pattern : forall  i, safe i wildcard_pattern any.
Proof. intros; unfold wildcard_pattern; ss. Qed.
#[local] Hint Resolve s_wildcard_pattern : safe.
Lemma s_wildcard_pattern_list : forall  i, safe i wildcard_pattern_list any.
Proof. intros; unfold wildcard_pattern_list; ss. Qed.
#[local] Hint Resolve s_wildcard_pattern_list : safe.
Lemma s_apply_to : forall  i, safe i apply_to any.
Proof. intros; unfold apply_to; ss. Qed.
#[local] Hint Resolve s_apply_to : safe.
Lemma s_apply_except : forall  i, K i IDENT -> reads X i "except" = true -> safe i apply_except any.
Proof. intros; unfold apply_except; ss. Qed.
#[local] Hint Resolve s_apply_except : safe.
Lemma s_apply_schema : forall  i, safe i (apply_schema R) any.
Proof. intros; unfold apply_schema; ss. Qed.
#[local] Hint Resolve s_apply_schema : safe.
Lemma s_opt_inner_public_modifier : forall  i, safe i opt_inner_public_modifier any.
Proof. intros; unfold opt_inner_public_modifier; ss. Qed.
#[local] Hint Resolve s_opt_inner_public_modifier : safe.
Lemma s_visibility_modifier : forall  i, safe i visibility_modifier any.
Proof. intros; unfold visibility_modifier; ss. Qed.
#[local] Hint Resolve s_visibility_modifier : safe.
Lemma s_opt_fun_modifiers : forall  i, safe i opt_fun_modifiers any.
Proof. intros; unfold opt_fun_modifiers; ss. Qed.
#[local] Hint Resolve s_opt_fun_modifiers : safe.
Lemma s_opt_ret_type : forall  i, safe i (opt_ret_type R) any.
Proof. intros; unfold opt_ret_type; ss. Qed.
#[local] Hint Resolve s_opt_ret_type : safe.
Lemma s_acquires : forall  i, K i ACQUIRES_KW -> safe i (acquires R) any.
Proof. intros; unfold acquires; ss. Qed.
#[local] Hint Resolve s_acquires : safe.
Lemma s_fun_signature : forall b i, K i FUN_KW -> safe i (fun_signature R b) any.
Proof. intros; unfold fun_signature; ss. Qed.
#[local] Hint Resolve s_fun_signature : safe.
Lemma s_fun_body : forall  i, safe i (fun_body R) any.
Proof. intros; unfold fun_body; ss. Qed.
#[local] Hint Resolve s_fun_body : safe.
Lemma s_spec_inline_function : forall  i, safe i (spec_inline_function R) any.
Proof. intros; unfold spec_inline_function; ss. Qed.
#[local] Hint Resolve s_spec_inline_function : safe.
Lemma s_use_rest : forall  i, K i USE_KW -> safe i (use_rest R) any.
Proof. intros; unfold use_rest; ss. Qed.
#[local] Hint Resolve s_use_rest : safe.
Lemma s_use_alias : forall  i, K i AS_KW -> safe i use_alias any.
Proof. intros; unfold use_alias; ss. Qed.
#[local] Hint Resolve s_use_alias : safe.
Lemma s_use_group : forall  i, K i L_CURLY -> safe i (use_group R) any.
Proof. intros; unfold use_group; ss. Qed.
#[local] Hint Resolve s_use_group : safe.
Lemma s_use_speck_body : forall b i, safe i (use_speck_body R b) any.
Proof. intros; unfold use_speck_body; ss. Qed.
#[local] Hint Resolve s_use_speck_body : safe.
Lemma s_let_stmt : forall b i, K i LET_KW -> safe i (let_stmt R b) any.
Proof. intros; unfold let_stmt; ss. Qed.
#[local] Hint Resolve s_let_stmt : safe.
Lemma s_proof : forall i, K i IDENT -> reads X i "proof" = true -> safe i (proof R) any.
Proof.
  intros i K1 H. unfold proof. eapply s_bind; [apply s_assert; holding|]. intros ? j _ ->. eapply (s_bind _ _ _ _ _ any); [apply s_node_any|intros; ss]. eapply s_bind; [apply s_remap|]. intros ? j _ E. specialize (E ltac:(inplace)). subst j.
  assert (PB : proof_before T X (i + 1)) by (exists i; repeat split; auto; lia). ss.
Qed.
#[local] Hint Resolve s_proof : safe.
Lemma s_lemma : forall  i, K i IDENT -> reads X i "lemma" = true -> safe i (lemma R) any.
Proof. intros; unfold lemma; ss. Qed.
#[local] Hint Resolve s_lemma : safe.
Lemma s_path_expr_exact : forall i j, names T i j -> K j L_PAREN -> safe i (path_expr R) (fun _ k => k = j).
Proof.
  intros i j H KJ. unfold path_expr. eapply (s_bind _ _ _ _ _ (fun x k => is_some (fst x) = true /\ k = j)); [|intros [c a] k _ [E ->]; destruct c; [now apply s_ret|discriminate]].
  eapply (s_marked _ _ _ _ (fun b _ k => b = true /\ k = j)). eapply s_bind; [apply (s_path_exact _ i j); auto; rewrite KJ; discriminate|]. intros ? k _ ->. apply s_bind_ask. intros b O. destruct b; [refute O|]. apply s_ret. cbn. auto.
Qed.
Lemma s_apply_lemma : forall i, proof_before T X i -> safe i (apply_lemma R) any.
Proof.
  intros i PB. unfold apply_lemma. apply s_bind_ask. intros b O. destruct b; [learn O|ss]. destruct (b_apply _ _ BN i PB ltac:(split; assumption)) as (j & N & KJ).
  eapply (s_bind _ _ _ _ _ any); [apply s_node_any|intros; ss]. eapply s_bind; [apply s_remap|]. intros ? k _ E. specialize (E ltac:(inplace)). subst k. eapply s_bind; [eapply s_path_expr_exact; eauto|]. intros ? k _ ->. ss.
Qed.
Lemma later_proof : forall i j, proof_before T X i -> i <= j -> proof_before T X j. Proof. intros i j (k & L & H) LE. exists k. split; [lia|auto]. Qed.
Lemma s_forall_apply_lemma : forall i, proof_before T X i -> safe i (forall_apply_lemma R) any.
Proof.
  intros i PB. unfold forall_apply_lemma. apply s_bind_ask. intros b O. destruct b; [learn O|ss]. eapply (s_bind _ _ _ _ _ any); [apply s_node_any|intros; ss]. eapply s_bind; [apply s_remap|]. intros ? j1 L1 _. eapply s_bind; [satom|]. intros ? j2 L2 _.
  eapply (s_bind _ _ _ _ _ any); [ss|]. intros ? j3 L3 _. eapply (s_bind _ _ _ _ _ any); [ss|]. intros ? j4 L4 _. eapply s_bind; [apply s_apply_lemma; eapply later_proof; [exact PB|lia]|]. intros b j5 L5 _. ss.
Qed.
#[local] Hint Resolve s_apply_lemma s_forall_apply_lemma later_proof : safe.
Lemma s_post_stmt : forall  i, safe i (post_stmt R) any.
Proof. intros; unfold post_stmt; ss. Qed.
#[local] Hint Resolve s_post_stmt : safe.
Lemma s_split_stmt : forall  i, safe i (split_stmt R) any.
Proof. intros; unfold split_stmt; ss. Qed.
#[local] Hint Resolve s_split_stmt : safe.
Lemma s_expr_stmt : forall  i, safe i (expr_stmt R) any.
Proof. intros; unfold expr_stmt; ss. Qed.
#[local] Hint Resolve s_expr_stmt : safe.
Lemma s_inline_use : forall i, K i USE_KW -> safe i (inline_use R) any. Proof. intros. unfold inline_use. ss. Qed.
#[local] Hint Resolve s_inline_use : safe.
Lemma s_spec_stmt : forall  i, safe i (spec_stmt R) any.
Proof. intros; unfold spec_stmt; ss. Qed.
#[local] Hint Resolve s_spec_stmt : safe.
Lemma s_proof_stmt : forall i, proof_before T X i -> safe i (proof_stmt R) any. Proof. intros. unfold proof_stmt. ss. Qed.
#[local] Hint Resolve s_proof_stmt : safe.
Lemma s_stmt_rest : forall i, safe i (stmt_rest R) any.
Proof.
  intros i. unfold stmt_rest. apply (s_bind_read _ _ i (fun e _ => e_sk e)). intros sk (e & p & (_ & _ & _ & _ & PB) & P & E). rewrite E, P in PB. clear E P p e. apply s_bind_ask. intros b O. destruct b; [learn O; ss|]. clear O. destruct sk; [clear PB; ss|clear PB; ss|]. specialize (PB eq_refl). ss.
Qed.
#[local] Hint Resolve s_stmt_rest : safe.
Lemma s_stmt_body : forall  i, safe i (stmt_body R) any.
Proof. intros; unfold stmt_body; ss. Qed.
#[local] Hint Resolve s_stmt_body : safe.
Lemma s_const_ : forall  i, K i CONST_KW -> safe i (const_ R) any.
Proof. intros; unfold const_; ss. Qed.
#[local] Hint Resolve s_const_ : safe.
Lemma s_friend_decl : forall  i, K i FRIEND_KW -> safe i (friend_decl R) any.
Proof. intros; unfold friend_decl; ss. Qed.
#[local] Hint Resolve s_friend_decl : safe.
Lemma s_opt_abilities_list : forall  i, safe i opt_abilities_list any.
Proof. intros; unfold opt_abilities_list; ss. Qed.
#[local] Hint Resolve s_opt_abilities_list : safe.
Lemma s_opt_abilities_list_with_semicolon : forall  i, safe i opt_abilities_list_with_semicolon any.
Proof. intros; unfold opt_abilities_list_with_semicolon; ss. Qed.
#[local] Hint Resolve s_opt_abilities_list_with_semicolon : safe.
Lemma s_named_field : forall  i, safe i (named_field R) any.
Proof. intros; unfold named_field; ss. Qed.
#[local] Hint Resolve s_named_field : safe.
Lemma s_named_field_list : forall  i, K i L_CURLY -> safe i (named_field_list R) any.
Proof. intros; unfold named_field_list; ss. Qed.
#[local] Hint Resolve s_named_field_list : safe.
Lemma s_tuple_field_list : forall  i, K i L_PAREN -> safe i (tuple_field_list R) any.
Proof. intros; unfold tuple_field_list; ss. Qed.
#[local] Hint Resolve s_tuple_field_list : safe.
Lemma s_struct_ : forall  i, K i STRUCT_KW -> safe i (struct_ R) any.
Proof. intros; unfold struct_; ss. Qed.
#[local] Hint Resolve s_struct_ : safe.
Lemma s_enum_variant : forall  i, safe i (enum_variant R) any.
Proof. intros; unfold enum_variant; ss. Qed.
#[local] Hint Resolve s_enum_variant : safe.
Lemma s_enum_variant_list : forall  i, K i L_CURLY -> safe i (enum_variant_list R) any.
Proof. intros; unfold enum_variant_list; ss. Qed.
#[local] Hint Resolve s_enum_variant_list : safe.
Lemma s_enum_ : forall  i, safe i (enum_ R) any.
Proof. intros; unfold enum_; ss. Qed.
#[local] Hint Resolve s_enum_ : safe.
Lemma s_function : forall  i, safe i (function R) any.
Proof. intros; unfold function; ss. Qed.
#[local] Hint Resolve s_function : safe.
Lemma s_spec_function : forall  i, safe i (spec_function R) any.
Proof. intros; unfold spec_function; ss. Qed.
#[local] Hint Resolve s_spec_function : safe.
Lemma s_item_spec_type_param : forall  i, safe i item_spec_type_param any.
Proof. intros; unfold item_spec_type_param; ss. Qed.
#[local] Hint Resolve s_item_spec_type_param : safe.
Lemma s_item_spec_type_param_list : forall  i, K i L_ANGLE -> safe i item_spec_type_param_list any.
Proof. intros; unfold item_spec_type_param_list; ss. Qed.
#[local] Hint Resolve s_item_spec_type_param_list : safe.
Lemma s_item_spec_param : forall  i, safe i (item_spec_param R) any.
Proof. intros; unfold item_spec_param; ss. Qed.
#[local] Hint Resolve s_item_spec_param : safe.
Lemma s_item_spec_param_list : forall  i, K i L_PAREN -> safe i (item_spec_param_list R) any.
Proof. intros; unfold item_spec_param_list; ss. Qed.
#[local] Hint Resolve s_item_spec_param_list : safe.
Lemma s_item_spec_signature : forall  i, safe i (item_spec_signature R) any.
Proof. intros; unfold item_spec_signature; ss. Qed.
#[local] Hint Resolve s_item_spec_signature : safe.
Lemma s_item_spec : forall  i, safe i (item_spec R) any.
Proof. intros; unfold item_spec; ss. Qed.
#[local] Hint Resolve s_item_spec : safe.
Lemma s_schema : forall  i, K i IDENT -> reads X i "schema" = true -> safe i (schema R) any.
Proof. intros; unfold schema; ss. Qed.
#[local] Hint Resolve s_schema : safe.
Lemma s_opt_item : forall  i, safe i (opt_item R) any.
Proof. intros; unfold opt_item; ss. Qed.
#[local] Hint Resolve s_opt_item : safe.
Lemma s_item : forall  i, safe i (item R) any.
Proof. intros; unfold item; ss. Qed.
#[local] Hint Resolve s_item : safe.
Lemma s_item_list : forall  i, K i L_CURLY -> safe i (item_list R) any.
Proof. intros; unfold item_list; ss. Qed.
#[local] Hint Resolve s_item_list : safe.
Lemma s_module : forall i, K i MODULE_KW -> safe i (module R) any.
Proof.
  intros i K1. unfold module. eapply s_bind; [satom|]. intros ? j _ ->. cbn [n_raw]. eapply (s_bind _ _ _ _ _ any); [|intros; ss].
  apply s_bind_ask. intros b O. destruct b; [learn O|ss]. rewrite <- Nat.add_assoc in K. cbn in K. pose proof (b_module _ _ BN i K1 K) as H. eapply s_bind; [apply s_any_address_exact; exact H|]. intros ? j _ ->. rewrite <- Nat.add_assoc. cbn. ss.
Qed.
#[local] Hint Resolve s_module : safe.
Lemma s_address_def : forall  i, safe i (address_def R) any.
Proof. intros; unfold address_def; ss. Qed.
#[local] Hint Resolve s_address_def : safe.
Lemma s_module_spec : forall  i, K i SPEC_KW -> safe i (module_spec R) any.
Proof. intros; unfold module_spec; ss. Qed.
#[local] Hint Resolve s_module_spec : safe.
Lemma s_script : forall  i, K i SCRIPT_KW -> safe i (script R) any.
Proof. intros; unfold script; ss. Qed.
#[local] Hint Resolve s_script : safe.
Lemma s_top_item : forall  i, safe i (top_item R) any.
Proof. intros; unfold top_item; ss. Qed.
#[local] Hint Resolve s_top_item : safe.
Lemma s_source_file : forall  i, safe i (source_file R) any.
Proof. intros; unfold source_file; ss. Qed.
#[local] Hint Resolve s_source_file : safe.

(** ** The path itself *)
Definition tail (i j : nat) : Prop := i = j \/ (K i COLON_COLON /\ names T (i + 1) j).
Lemma names_tail : forall i j, names T i j -> tail (i + 1) j.
Proof. intros i j H. destruct H; [left; reflexivity|right]. split; auto. rewrite <- Nat.add_assoc. assumption. Qed.
Lemma s_no_args : forall i m, kind_at T i <> L_ANGLE -> (K i COLON_COLON -> kind_at T (i + 1) <> L_ANGLE) -> safe i (opt_path_type_arg_list R m) (fun _ j => j = i).
Proof.
  intros i m N1 N2. assert (A : forall b, safe i (opt_type_arg_list_for_expr R b) (fun _ j => j = i)).
  { intros b. unfold opt_type_arg_list_for_expr. apply s_bind_ask. intros b1 O1. destruct b1; [learn O1; exfalso; apply N2; assumption|]. apply s_bind_ask. intros b2 O2. destruct b2; [learn O2; exfalso; auto|]. now apply s_ret. }
  destruct m; cbn [opt_path_type_arg_list].
  - unfold opt_type_arg_list_for_type. apply s_bind_ask. intros b O. destruct b; [learn O; exfalso; auto|]. apply s_skip.
  - eapply s_bind; [apply A|]. intros ? j _ ->. apply s_skip.
Qed.
Lemma s_path_segment_exact : forall mode b i j, names T i j -> kind_at T j <> L_ANGLE -> kind_at T j <> COLON_COLON -> safe i (path_segment R mode b) (fun ok k => ok = true /\ k = i + 1).
Proof.
  intros mode b i j H N1 N2. pose proof (names_ident _ _ H) as KI. assert (NA : kind_at T (i + 1) <> L_ANGLE /\ (K (i + 1) COLON_COLON -> kind_at T (i + 1 + 1) <> L_ANGLE)).
  { destruct (names_tail _ _ H) as [E|[E1 E2]]; [subst j; split; auto; intros; contradiction|]. rewrite E1, (names_ident _ _ E2). split; intros; discriminate. }
  unfold path_segment. eapply s_bind; [eapply (s_marked _ _ _ _ (fun _ ok k => ok = true /\ k = i + 1))|cbv beta; intros [c ok] k _ [E1 E2]; cbn [snd] in E1; subst; apply s_ret; auto].
  apply s_bind_ask. intros b1 O. destruct b1; [clear O|refute O]. eapply s_bind; [now apply s_name_ref_exact|]. intros ? k _ ->. eapply (s_bind _ _ _ _ _ (fun _ k => k = i + 1)); [|intros ? k _ ->; apply s_ret; cbn; auto].
  destruct mode as [m|]; [apply s_no_args; apply NA|apply s_skip].
Qed.
Lemma s_path_loop_exact : forall mode c i j, tail i j -> kind_at T j <> COLON_COLON -> kind_at T j <> L_ANGLE -> safe i (path_loop R mode c) (fun _ k => k = j).
Proof.
  intros mode c i j H N1 N2. unfold path_loop. apply (s_loop _ _ _ (fun _ k => tail k j)); auto. clear c. intros c k _ HT. apply s_bind_ask. intros b O. destruct b.
  - learn O. destruct HT as [->|[_ HN]]; [contradiction|]. pose proof (names_ident _ _ HN) as KI. apply s_bind_ask. intros b O. destruct b; [refute O|]. eapply (s_bind _ _ _ _ _ (fun _ m => tail m j)); [|intros [c' a] m _ HT; apply s_ret; exact HT].
    apply (s_preceded _ _ _ _ _ (fun _ m => tail m j)). eapply s_bind; [satom|]. intros ? m _ ->. cbn [n_raw]. eapply s_bind; [eapply s_path_segment_exact; eauto|]. intros ok m _ [_ ->]. apply s_ret. cbn. now apply names_tail.
  - apply s_ret. destruct HT as [->|[E _]]; [reflexivity|refute O].
Qed.
Lemma s_path_body : forall i mode, safe i (path_body R mode) (fun _ j => forall k, names T i k -> kind_at T k <> COLON_COLON -> kind_at T k <> L_ANGLE -> j = k).
Proof.
  intros i mode. assert (A : safe i (path_body R mode) any) by (unfold path_body; ss).
  assert (E : forall k, names T i k -> kind_at T k <> COLON_COLON -> kind_at T k <> L_ANGLE -> safe i (path_body R mode) (fun _ j => j = k)).
  { intros k H N1 N2. unfold path_body. eapply (s_bind _ _ _ _ _ (fun x j => is_some (fst x) = true /\ j = i + 1)).
    - eapply (s_marked _ _ _ _ (fun b _ j => b = true /\ j = i + 1)). eapply s_bind; [eapply s_path_segment_exact; eauto|]. intros ok j _ [-> ->]. apply s_ret. cbn. auto.
    - intros [c a] j _ [E ->]. destruct c as [c|]; [|discriminate]. eapply s_bind; [apply (s_path_loop_exact _ _ _ k); auto using names_tail|]. intros ? j _ ->. now apply s_ret. }
  intros e p B P. specialize (A e p B P). destruct (path_body R mode e p) as [b p'| | |] eqn:EQ; auto. destruct A as (S & G & _). split; auto. split; auto. intros k H N1 N2. specialize (E k H N1 N2 e p B P). rewrite EQ in E. apply E.
Qed.
Lemma good_step : good (unfold_recs R).
Proof.
  constructor; intros; cbn [unfold_recs r_path r_type r_pattern r_expr r_stmt r_attr_item r_use_speck]; auto using s_path_body, s_type_body, s_pattern_body, s_expr_bp_body, s_stmt_body, s_attr_item_body, s_use_speck_body.
Qed.

End Step.
Lemma good_bottom : good bottom. Proof. constructor; intros; apply s_fuel. Qed.
Lemma good_run : forall n, good (run n). Proof. induction n as [|n IH]; [apply good_bottom|cbn [run]; now apply good_step]. Qed.
End All.
