(** Every function of the grammar respects the discipline; the lemmas follow the order of GrammarModel.v. *)
From Coq Require Import String.
From Verif Require Import Base SyntaxKind ParserModel ParserSpec ParserProofs ParserProofs2 ParserProps TreeSinkModel TreeSinkSpec TreeSinkProps AddressModel GrammarBase GrammarModel GrammarDisc.
Close Scope string_scope.

Ltac dfine := cbn; try match goal with |- ?x = true => destruct x as [] eqn:?; first [reflexivity | discriminate | idtac] end; repeat match goal with |- _ /\ _ => split end; auto;
  repeat match goal with |- context [if ?b then _ else _] => destruct b end; auto.
Ltac dnorm := cbn [hnd fine hnd_unit hnd_bool hnd_nat hnd_rset hnd_sk hnd_kind hnd_cm hnd_option hnd_pair hnd_sum hnd_closing fst snd option_map] in *.
Ltac datom := solve [auto 4 with disc nocore | apply d_weaken; auto 4 with disc nocore].
Ltac dd :=
  intros; dnorm;
  lazymatch goal with
  | |- disc ?o (mbind ?m ?k) =>
      lazymatch o with
      | None => apply d_bind; [dd|let a := fresh "a" in let F := fresh "F" in intros a F; cbv beta; dnorm; dd]
      | Some (c_pos ?c) =>
          lazymatch m with
          | context [c] => apply d_bind; [dd|let a := fresh "a" in let F := fresh "F" in intros a F; cbv beta; dnorm; dd]
          | _ => apply d_keep; [dd|let a := fresh "a" in let F := fresh "F" in intros a F; cbv beta; dnorm; dd]
          end
      | _ => apply d_weaken; dd
      end
  | |- disc _ (ret ?a) => apply d_ret; [dfine|dnorm; first [left; reflexivity|right; reflexivity|repeat match goal with x : option _ |- _ => destruct x | x : closing |- _ => destruct x end; dnorm; auto]]
  | |- disc _ crash => apply d_crash
  | |- disc _ (plain _) => unfold plain; dd
  | |- disc _ (some_closing _) => unfold some_closing; dd
  | |- disc _ (unary _ _ _ _) => unfold unary; dd
  | |- disc _ (the_cm ?x) => destruct x; unfold the_cm; dd
  | |- disc _ (match ?x with _ => _ end) => destruct x; dd
  | |- disc _ (preceded ?c _) => apply d_preceded; dd
  | |- disc None (marked _) => apply d_marked; dd
  | |- disc None (node _ _) => apply d_node; [dfine|dd]
  | |- disc None (checked _) => apply d_checked; dd
  | |- disc None (delimited _ _ _ _) => apply d_delimited; [dfine|dd]
  | |- disc None (iterate_to_EOF _ _ _) => apply d_iterate; [dfine|intros; cbv beta; dd]
  | |- disc _ (with_rs _ _) => apply d_with_rs; dd
  | |- disc _ (with_ts _ _) => apply d_with_ts; dd
  | |- disc _ (reset_rs _) => apply d_reset_rs; dd
  | |- disc _ (with_sk _ _) => apply d_with_sk; dd
  | |- disc None (loop ?f ?s) => change (disc (hnd s) (loop f s)); apply d_loop; [dfine|intros; cbv beta; dd]
  | |- disc None _ => first [datom|idtac]
  | |- disc _ _ => first [datom|apply d_weaken; dd]
  end.
Ltac dloop :=
  match goal with |- disc _ (loop ?f ?s) => change (disc (hnd s) (loop f s)); apply d_loop; [dfine|]; let s := fresh "s" in intros s ?; cbv beta; try destruct s as [[? ?] ?]; dnorm; dd end.
#[export] Hint Resolve d_ask d_outer_rs d_stmt_kind d_pos d_debug d_skip d_upd_err d_bump_any d_assert d_error_and_bump d_error_and_recover d_wrap_with_error : disc.
#[export] Hint Resolve d_eat d_remap d_bump d_expect d_expect_msg : disc.
#[export] Hint Extern 1 (okk _ = true) => first [reflexivity|assumption|match goal with H : _ /\ okk _ = true |- _ => exact (proj2 H) end] : disc.
#[export] Hint Extern 1 (disc _ (at_ _)) => apply d_ask : disc.
#[export] Hint Extern 1 (disc _ (nth_at_ _ _)) => apply d_ask : disc.
#[export] Hint Extern 1 (disc _ (cur _)) => apply d_ask : disc.
#[export] Hint Extern 1 (disc _ (at_ts _)) => apply d_ask : disc.
#[export] Hint Extern 1 (disc _ (kwi _)) => apply d_ask : disc.
#[export] Hint Extern 1 (disc _ (cur_kw _)) => apply d_ask : disc.
#[export] Hint Extern 1 (disc _ (rs_test _)) => apply d_ask : disc.

Lemma op_okk : forall p, okk (snd (op_of p)) = true.
Proof. intros p. unfold op_of. destruct (current p); try reflexivity; repeat match goal with |- context [if ?b then _ else _] => destruct b end; reflexivity. Qed.
Lemma d_current_op : forall o, disc o current_op.
Proof. intros o. apply d_read. intros e p. split; [reflexivity|]. split; [exact I|]. cbn. destruct (_ && _); [reflexivity|apply op_okk]. Qed.
#[export] Hint Resolve d_current_op : disc.
Lemma d_value_address : disc None value_address. Proof. intros. unfold value_address. dd. Qed.
#[export] Hint Resolve d_value_address : disc.
Lemma d_any_address : disc None any_address. Proof. intros. unfold any_address. dd. Qed.
#[export] Hint Resolve d_any_address : disc.
Lemma d_name_or_recover : forall extra, disc None (name_or_recover extra). Proof. intros. unfold name_or_recover. dd. Qed.
#[export] Hint Resolve d_name_or_recover : disc.
Lemma d_name : disc None name. Proof. intros. unfold name. dd. Qed.
#[export] Hint Resolve d_name : disc.
Lemma d_name_ref_or_recover : disc None name_ref_or_recover. Proof. intros. unfold name_ref_or_recover. dd. Qed.
#[export] Hint Resolve d_name_ref_or_recover : disc.
Lemma d_name_ref : disc None name_ref. Proof. intros. unfold name_ref. dd. Qed.
#[export] Hint Resolve d_name_ref : disc.
Lemma d_ability : disc None ability. Proof. intros. unfold ability. dd. Qed.
#[export] Hint Resolve d_ability : disc.
Lemma d_abilities_list : disc None abilities_list. Proof. intros. unfold abilities_list. dd. Qed.
#[export] Hint Resolve d_abilities_list : disc.

(** the recursive functions *)
Record disc_recs (R : recs) : Prop := mkDisc {
  dr_path : forall m, disc None (r_path R m);
  dr_type : forall rs, disc None (r_type R rs);
  dr_pattern : disc None (r_pattern R);
  dr_expr : forall r bp, disc None (r_expr R r bp);
  dr_stmt : disc None (r_stmt R);
  dr_attr_item : disc None (r_attr_item R);
  dr_use_speck : forall b, disc None (r_use_speck R b)
}.
Lemma wildcard_in : forall fuel p i n, p_pos p + n <= length (p_toks p) -> i = n -> p_pos p + wildcard_count fuel p i n <= length (p_toks p).
Proof.
  induction fuel as [|fuel IH]; intros p i n L ->; cbn [wildcard_count]; auto. destruct (nth_at p n IDENT || nth_at p n STAR) eqn:E; auto.
  assert (L1 : p_pos p + S n <= length (p_toks p)).
  { apply orb_prop in E. destruct E as [E|E]; cbn [nth_at] in E; match type of E with kind_eqb ?x ?y = true => destruct (kind_eqb_reflect x y) as [Q|]; [|discriminate] end; apply kind_in in Q; try discriminate; lia. }
  destruct (negb _); auto.
Qed.
Lemma d_wildcard_ident_ : disc None wildcard_ident.
Proof.
  intros e p f rest l0 S O H I. unfold wildcard_ident. set (n := wildcard_count _ p 0 0). destruct (e_debug e && _); [exact Logic.I|]. destruct (0 <? n mod 256) eqn:E.
  - split; [exact Logic.I|]. destruct (kind_eqb (current p) EOF); [exists l0; split; [apply runs_refl|exact Logic.I]|]. eexists (l0 ++ [ITok WILDCARD_IDENT (n mod 256)]). rewrite <- add_add. split; [|exact Logic.I].
    assert (P : p_pos p <= length (p_toks p)) by apply (mn_le _ _ _ (proj1 I)).
    assert (Le : n mod 256 <= n) by (apply Nat.mod_le; discriminate).
    apply runs_bump; auto.
    + apply Nat.ltb_lt in E. cbn [careful]. split; [lia|]. split; auto. intros j J. apply (wildcard_joint (Datatypes.S (left_ p)) p 0 0); [reflexivity|intros; lia|]. fold n. lia.
    + assert (p_pos p + n <= length (p_toks p)) by (apply wildcard_in; auto; lia). lia.
  - split; [exact Logic.I|]. exists l0. split; [apply runs_refl|exact Logic.I].
Qed.

Section Functions.
Variable R : recs.
Hypothesis HR : disc_recs R.
Lemma d_path : forall m, disc None (path R m). Proof. exact (dr_path _ HR). Qed.
Lemma d_type_or_recover : forall rs, disc None (type_or_recover R rs). Proof. exact (dr_type _ HR). Qed.
Lemma d_pattern : disc None (pattern R). Proof. exact (dr_pattern _ HR). Qed.
Lemma d_expr_bp : forall r bp, disc None (expr_bp R r bp). Proof. exact (dr_expr _ HR). Qed.
Lemma d_stmt : disc None (stmt R). Proof. exact (dr_stmt _ HR). Qed.
Lemma d_attr_item : disc None (attr_item R). Proof. exact (dr_attr_item _ HR). Qed.
Lemma d_use_speck : forall b, disc None (use_speck R b). Proof. exact (dr_use_speck _ HR). Qed.
#[local] Hint Resolve d_path d_type_or_recover d_pattern d_expr_bp d_stmt d_attr_item d_use_speck : disc.
Lemma d_type_ : disc None (type_ R). Proof. intros. unfold type_. dd. Qed.
#[local] Hint Resolve d_type_ : disc.
Lemma d_path_type : disc None (path_type R). Proof. intros. unfold path_type. dd. Qed.
#[local] Hint Resolve d_path_type : disc.
Lemma d_type_annotation : disc None (type_annotation R). Proof. intros. unfold type_annotation. dd. Qed.
#[local] Hint Resolve d_type_annotation : disc.
Lemma d_type_arg : forall is_type, disc None (type_arg R is_type). Proof. intros. unfold type_arg. dd. Qed.
#[local] Hint Resolve d_type_arg : disc.
Lemma d_opt_type_arg_list_for_type : disc None (opt_type_arg_list_for_type R). Proof. intros. unfold opt_type_arg_list_for_type. dd. Qed.
#[local] Hint Resolve d_opt_type_arg_list_for_type : disc.
Lemma d_type_args_rest : forall first, disc None first -> disc None (type_args_rest R first). Proof. intros first F. unfold type_args_rest. dd. Qed.
#[local] Hint Resolve d_type_args_rest : disc.
Lemma d_opt_type_arg_list_for_expr : forall colon_colon_required, disc None (opt_type_arg_list_for_expr R colon_colon_required). Proof. intros. unfold opt_type_arg_list_for_expr. dd. Qed.
#[local] Hint Resolve d_opt_type_arg_list_for_expr : disc.
Lemma d_opt_path_type_arg_list : forall mode, disc None (opt_path_type_arg_list R mode). Proof. intros. unfold opt_path_type_arg_list. dd. Qed.
#[local] Hint Resolve d_opt_path_type_arg_list : disc.
Lemma d_path_segment : forall mode is_first, disc None (path_segment R mode is_first). Proof. intros. unfold path_segment. dd. Qed.
#[local] Hint Resolve d_path_segment : disc.
Lemma d_path_loop : forall mode c, disc (Some (c_pos c)) (path_loop R mode c). Proof. intros mode c. unfold path_loop. dloop. Qed.
#[local] Hint Resolve d_path_loop : disc.
Lemma d_path_body : forall mode, disc None (path_body R mode). Proof. intros. unfold path_body. dd. Qed.
#[local] Hint Resolve d_path_body : disc.
Lemma d_colon_ability_bound_list : disc None colon_ability_bound_list. Proof. intros. unfold colon_ability_bound_list. dd. Qed.
#[local] Hint Resolve d_colon_ability_bound_list : disc.
Lemma d_ability_bound_list : disc None ability_bound_list. Proof. intros. unfold ability_bound_list. dd. Qed.
#[local] Hint Resolve d_ability_bound_list : disc.
Lemma d_ref_type : disc None (ref_type R). Proof. intros. unfold ref_type. dd. Qed.
#[local] Hint Resolve d_ref_type : disc.
Lemma d_lambda_type : disc None (lambda_type R). Proof. intros. unfold lambda_type. dd. Qed.
#[local] Hint Resolve d_lambda_type : disc.
Lemma d_paren_or_tuple_or_unit_type : disc None (paren_or_tuple_or_unit_type R). Proof. intros. unfold paren_or_tuple_or_unit_type. dd. Qed.
#[local] Hint Resolve d_paren_or_tuple_or_unit_type : disc.
Lemma d_type_body : forall extra, disc None (type_body R extra). Proof. intros. unfold type_body. dd. Qed.
#[local] Hint Resolve d_type_body : disc.
Lemma d_type_param : disc None type_param. Proof. intros. unfold type_param. dd. Qed.
#[local] Hint Resolve d_type_param : disc.
Lemma d_opt_type_param_list : disc None opt_type_param_list. Proof. intros. unfold opt_type_param_list. dd. Qed.
#[local] Hint Resolve d_opt_type_param_list : disc.
Lemma d_attr_item_list : forall a b, okk a = true -> okk b = true -> disc None (attr_item_list R a b). Proof. intros a b K1 K2. unfold attr_item_list. dd. Qed.
#[local] Hint Resolve d_attr_item_list : disc.
Lemma d_attr : disc None (attr R). Proof. intros. unfold attr. dd. Qed.
#[local] Hint Resolve d_attr : disc.
Lemma d_attrs : disc None (attrs R). Proof. unfold attrs. change (disc (hnd (@None cm)) (loop (fun last => IF at_ POUND THEN (c <- attr R ;; ret (inl (Some c))) ELSE ret (inr last)) None)). apply d_loop; [exact I|]. intros s _. apply d_keep; [apply d_ask|]. intros [|] _; [|apply d_ret; cbn; auto; destruct s; exact I]. apply d_weaken. apply d_bind; [auto with disc nocore|]. intros c _. apply d_ret; cbn; auto. Qed.
#[local] Hint Resolve d_attrs : disc.
Lemma d_expr : disc None (expr R). Proof. intros. unfold expr. dd. Qed.
#[local] Hint Resolve d_expr : disc.
Lemma d_expect_expr : disc None (expect_expr R). Proof. intros. unfold expect_expr. dd. Qed.
#[local] Hint Resolve d_expect_expr : disc.
Lemma d_opt_initializer_expr : disc None (opt_initializer_expr R). Proof. intros. unfold opt_initializer_expr. dd. Qed.
#[local] Hint Resolve d_opt_initializer_expr : disc.
Lemma d_initializer_expr : disc None (initializer_expr R). Proof. intros. unfold initializer_expr. dd. Qed.
#[local] Hint Resolve d_initializer_expr : disc.
Lemma d_attr_item_body : disc None (attr_item_body R). Proof. intros. unfold attr_item_body. dd. Qed.
#[local] Hint Resolve d_attr_item_body : disc.
Lemma d_value_arg_list : disc None (value_arg_list R). Proof. intros. unfold value_arg_list. dd. Qed.
#[local] Hint Resolve d_value_arg_list : disc.
Lemma d_literal : disc None literal. Proof. intros. unfold literal. dd. Qed.
#[local] Hint Resolve d_literal : disc.
Lemma d_literal_pat : disc None literal_pat. Proof. intros. unfold literal_pat. dd. Qed.
#[local] Hint Resolve d_literal_pat : disc.
Lemma d_wildcard_pat : disc None wildcard_pat. Proof. intros. unfold wildcard_pat. dd. Qed.
#[local] Hint Resolve d_wildcard_pat : disc.
Lemma d_ident_pat : disc None ident_pat. Proof. intros. unfold ident_pat. dd. Qed.
#[local] Hint Resolve d_ident_pat : disc.
Lemma d_ident_pat_or_recover : disc None ident_pat_or_recover. Proof. intros. unfold ident_pat_or_recover. dd. Qed.
#[local] Hint Resolve d_ident_pat_or_recover : disc.
Lemma d_tuple_pat_fields : disc None (tuple_pat_fields R). Proof. intros. unfold tuple_pat_fields. dd. Qed.
#[local] Hint Resolve d_tuple_pat_fields : disc.
Lemma d_struct_pat_field : disc None (struct_pat_field R). Proof. intros. unfold struct_pat_field. dd. Qed.
#[local] Hint Resolve d_struct_pat_field : disc.
Lemma d_struct_pat_field_list : disc None (struct_pat_field_list R). Proof. intros. unfold struct_pat_field_list. dd. Qed.
#[local] Hint Resolve d_struct_pat_field_list : disc.
Lemma d_path_pat : disc None (path_pat R). Proof. intros. unfold path_pat. dd. Qed.
#[local] Hint Resolve d_path_pat : disc.
Lemma d_tuple_or_unit_or_paren_pat : disc None (tuple_or_unit_or_paren_pat R). Proof. intros. unfold tuple_or_unit_or_paren_pat. dd. Qed.
#[local] Hint Resolve d_tuple_or_unit_or_paren_pat : disc.
Lemma d_pattern_body : disc None (pattern_body R). Proof. intros. unfold pattern_body. dd. Qed.
#[local] Hint Resolve d_pattern_body : disc.
Lemma d_param : disc None (param R). Proof. intros. unfold param. dd. Qed.
#[local] Hint Resolve d_param : disc.
Lemma d_fun_param_list : disc None (fun_param_list R). Proof. intros. unfold fun_param_list. dd. Qed.
#[local] Hint Resolve d_fun_param_list : disc.
Lemma d_lambda_param : disc None (lambda_param R). Proof. intros. unfold lambda_param. dd. Qed.
#[local] Hint Resolve d_lambda_param : disc.
Lemma d_lambda_param_list : disc None (lambda_param_list R). Proof. intros. unfold lambda_param_list. dd. Qed.
#[local] Hint Resolve d_lambda_param_list : disc.
Lemma d_stmt_list : disc None (stmt_list R). Proof. intros. unfold stmt_list. dd. Qed.
#[local] Hint Resolve d_stmt_list : disc.
Lemma d_block_expr : disc None (block_expr R). Proof. intros. unfold block_expr. dd. Qed.
#[local] Hint Resolve d_block_expr : disc.
Lemma d_unexpected_block : forall s, disc None (unexpected_block R s). Proof. intros. unfold unexpected_block. dd. Qed.
#[local] Hint Resolve d_unexpected_block : disc.
Lemma d_inline_expr : disc None (inline_expr R). Proof. intros. unfold inline_expr. dd. Qed.
#[local] Hint Resolve d_inline_expr : disc.
Lemma d_block_or_inline_expr : disc None (block_or_inline_expr R). Proof. intros. unfold block_or_inline_expr. dd. Qed.
#[local] Hint Resolve d_block_or_inline_expr : disc.
Lemma d_spec_block_expr : disc None (spec_block_expr R). Proof. intros. unfold spec_block_expr. dd. Qed.
#[local] Hint Resolve d_spec_block_expr : disc.
Lemma d_opt_spec_block_expr : disc None (opt_spec_block_expr R). Proof. intros. unfold opt_spec_block_expr. dd. Qed.
#[local] Hint Resolve d_opt_spec_block_expr : disc.
Lemma d_quant_binding : disc None (quant_binding R). Proof. intros. unfold quant_binding. dd. Qed.
#[local] Hint Resolve d_quant_binding : disc.
Lemma d_quant_binding_list : forall extra, disc None (quant_binding_list R extra). Proof. intros. unfold quant_binding_list. dd. Qed.
#[local] Hint Resolve d_quant_binding_list : disc.
Lemma d_quant_trigger_list : disc None (quant_trigger_list R). Proof. intros. unfold quant_trigger_list. dd. Qed.
#[local] Hint Resolve d_quant_trigger_list : disc.
Lemma d_opt_where_expr : disc None (opt_where_expr R). Proof. intros. unfold opt_where_expr. dd. Qed.
#[local] Hint Resolve d_opt_where_expr : disc.
Lemma d_weight : disc None (weight R). Proof. intros. unfold weight. dd. Qed.
#[local] Hint Resolve d_weight : disc.
Lemma d_quant_expr : forall kw k, okk kw = true -> okk k = true -> disc None (quant_expr R kw k). Proof. intros kw k K1 K2. unfold quant_expr. dd. Qed.
#[local] Hint Resolve d_quant_expr : disc.
Lemma d_choose_expr : disc None (choose_expr R). Proof. intros. unfold choose_expr. dd. Qed.
#[local] Hint Resolve d_choose_expr : disc.
Lemma d_struct_lit_field_list : disc None (struct_lit_field_list R). Proof. intros. unfold struct_lit_field_list. dd. Qed.
#[local] Hint Resolve d_struct_lit_field_list : disc.
Lemma d_the_cm : forall x, disc (hnd x) (the_cm x). Proof. intros [c|]; cbn; [apply d_ret; cbn; auto|apply d_crash]. Qed.
#[local] Hint Resolve d_the_cm : disc.
Lemma d_path_expr : disc None (path_expr R). Proof. intros. unfold path_expr. dd. Qed.
#[local] Hint Resolve d_path_expr : disc.
Lemma d_vector_lit_expr : disc None (vector_lit_expr R). Proof. intros. unfold vector_lit_expr. dd. Qed.
#[local] Hint Resolve d_vector_lit_expr : disc.
Lemma d_top_level_expr_in_stmt : disc None (top_level_expr_in_stmt R). Proof. intros. unfold top_level_expr_in_stmt. dd. Qed.
#[local] Hint Resolve d_top_level_expr_in_stmt : disc.
Lemma d_match_arm : disc None (match_arm R). Proof. intros. unfold match_arm. dd. Qed.
#[local] Hint Resolve d_match_arm : disc.
Lemma d_match_arm_list : disc None (match_arm_list R). Proof. intros. unfold match_arm_list. dd. Qed.
#[local] Hint Resolve d_match_arm_list : disc.
Lemma d_match_expr : disc None (match_expr R). Proof. intros. unfold match_expr. dd. Qed.
#[local] Hint Resolve d_match_expr : disc.
Lemma d_assert_macro_expr : disc None (assert_macro_expr R). Proof. intros. unfold assert_macro_expr. dd. Qed.
#[local] Hint Resolve d_assert_macro_expr : disc.
Lemma d_paren_or_tuple_or_annotated_expr : disc None (paren_or_tuple_or_annotated_expr R). Proof. intros. unfold paren_or_tuple_or_annotated_expr. dd. Qed.
#[local] Hint Resolve d_paren_or_tuple_or_annotated_expr : disc.
Lemma d_condition : disc None (condition R). Proof. intros. unfold condition. dd. Qed.
#[local] Hint Resolve d_condition : disc.
Lemma d_if_expr : disc None (if_expr R). Proof. intros. unfold if_expr. dd. Qed.
#[local] Hint Resolve d_if_expr : disc.
Lemma d_label_decl : disc None label_decl. Proof. intros. unfold label_decl. dd. Qed.
#[local] Hint Resolve d_label_decl : disc.
Lemma d_loop_rest : disc None (loop_rest R). Proof. intros. unfold loop_rest. dd. Qed.
#[local] Hint Resolve d_loop_rest : disc.
Lemma d_for_condition : disc None (for_condition R). Proof. intros. unfold for_condition. dd. Qed.
#[local] Hint Resolve d_for_condition : disc.
Lemma d_for_rest : disc None (for_rest R). Proof. intros. unfold for_rest. dd. Qed.
#[local] Hint Resolve d_for_rest : disc.
Lemma d_while_rest : disc None (while_rest R). Proof. intros. unfold while_rest. dd. Qed.
#[local] Hint Resolve d_while_rest : disc.
Lemma d_with_marker : forall m, disc None m -> disc None (with_marker m). Proof. intros m D. unfold with_marker. dd. Qed.
#[local] Hint Resolve d_with_marker : disc.
Lemma d_opt_expr : disc None (opt_expr R). Proof. intros. unfold opt_expr. dd. Qed.
#[local] Hint Resolve d_opt_expr : disc.
Lemma d_opt_label : disc None opt_label. Proof. intros. unfold opt_label. dd. Qed.
#[local] Hint Resolve d_opt_label : disc.
Lemma d_return_expr : disc None (return_expr R). Proof. intros. unfold return_expr. dd. Qed.
#[local] Hint Resolve d_return_expr : disc.
Lemma d_abort_expr : disc None (abort_expr R). Proof. intros. unfold abort_expr. dd. Qed.
#[local] Hint Resolve d_abort_expr : disc.
Lemma d_continue_expr : disc None continue_expr. Proof. intros. unfold continue_expr. dd. Qed.
#[local] Hint Resolve d_continue_expr : disc.
Lemma d_break_expr : disc None (break_expr R). Proof. intros. unfold break_expr. dd. Qed.
#[local] Hint Resolve d_break_expr : disc.
Lemma d_done : forall m, disc None m -> disc None (done m). Proof. intros m D. unfold done. dd. Qed.
#[local] Hint Resolve d_done : disc.
Lemma d_plain : forall m, disc None m -> disc None (plain m). Proof. intros m D. unfold plain. dd. Qed.
#[local] Hint Resolve d_plain : disc.
Lemma d_labelled : disc None (labelled R). Proof. intros. unfold labelled. dd. Qed.
#[local] Hint Resolve d_labelled : disc.
Lemma d_atom_rest : disc None (atom_rest R). Proof. intros. unfold atom_rest. dd. Qed.
#[local] Hint Resolve d_atom_rest : disc.
Lemma d_atom_expr : disc None (atom_expr R). Proof. intros. unfold atom_expr. dd. Qed.
#[local] Hint Resolve d_atom_expr : disc.
Lemma d_call_expr : forall c, disc (Some (c_pos c)) (call_expr R c). Proof. intros. unfold call_expr. dd. Qed.
#[local] Hint Resolve d_call_expr : disc.
Lemma d_index_expr : forall c, disc (Some (c_pos c)) (index_expr R c). Proof. intros. unfold index_expr. dd. Qed.
#[local] Hint Resolve d_index_expr : disc.
Lemma d_postfix_dot_expr : forall c, disc (Some (c_pos c)) (postfix_dot_expr R c). Proof. intros. unfold postfix_dot_expr. dd. Qed.
#[local] Hint Resolve d_postfix_dot_expr : disc.
Lemma d_postfix_expr : forall c bl allow, disc (Some (c_pos c)) (postfix_expr R (c, bl, allow)). Proof. intros c bl allow. unfold postfix_expr. dloop. Qed.
#[local] Hint Resolve d_postfix_expr : disc.
Lemma d_is_expr : forall c, disc (Some (c_pos c)) (is_expr R c). Proof. intros. unfold is_expr. dd. Qed.
#[local] Hint Resolve d_is_expr : disc.
Lemma d_cast_expr : forall c, disc (Some (c_pos c)) (cast_expr R c). Proof. intros. unfold cast_expr. dd. Qed.
#[local] Hint Resolve d_cast_expr : disc.
Lemma d_behavior_predicate : disc None (behavior_predicate R). Proof. intros. unfold behavior_predicate. dd. Qed.
#[local] Hint Resolve d_behavior_predicate : disc.
Lemma d_unary : forall k r first, okk k = true -> disc None first -> disc None (unary R k r first). Proof. intros k r first K F. unfold unary. dd. Qed.
#[local] Hint Resolve d_unary : disc.
Lemma d_lhs : forall r, disc None (lhs R r). Proof. intros. unfold lhs. dd. Qed.
#[local] Hint Resolve d_lhs : disc.
Lemma d_expr_loop : forall r bp c, disc (Some (c_pos c)) (expr_loop R r bp c). Proof. intros r bp c. unfold expr_loop. dloop. Qed.
#[local] Hint Resolve d_expr_loop : disc.
Lemma d_expr_bp_body : forall r bp, disc None (expr_bp_body R r bp). Proof. intros. unfold expr_bp_body. dd. Qed.
#[local] Hint Resolve d_expr_bp_body : disc.
Lemma d_opt_predicate_property_list : disc None opt_predicate_property_list. Proof. intros. unfold opt_predicate_property_list. dd. Qed.
#[local] Hint Resolve d_opt_predicate_property_list : disc.
Lemma d_predicate_rest : forall kw, okk kw = true -> disc None (predicate_rest R kw). Proof. intros kw K1. unfold predicate_rest. dd. Qed.
#[local] Hint Resolve d_predicate_rest : disc.
Lemma d_condition_predicate : disc None (condition_predicate R). Proof. intros. unfold condition_predicate. dd. Qed.
#[local] Hint Resolve d_condition_predicate : disc.
Lemma d_aborts_if_predicate : disc None (aborts_if_predicate R). Proof. intros. unfold aborts_if_predicate. dd. Qed.
#[local] Hint Resolve d_aborts_if_predicate : disc.
Lemma d_opt_emits_condition : disc None (opt_emits_condition R). Proof. intros. unfold opt_emits_condition. dd. Qed.
#[local] Hint Resolve d_opt_emits_condition : disc.
Lemma d_emits_predicate : disc None (emits_predicate R). Proof. intros. unfold emits_predicate. dd. Qed.
#[local] Hint Resolve d_emits_predicate : disc.
Lemma d_invariant_predicate : disc None (invariant_predicate R). Proof. intros. unfold invariant_predicate. dd. Qed.
#[local] Hint Resolve d_invariant_predicate : disc.
Lemma d_aborts_with_predicate : disc None (aborts_with_predicate R). Proof. intros. unfold aborts_with_predicate. dd. Qed.
#[local] Hint Resolve d_aborts_with_predicate : disc.
Lemma d_axiom_predicate : disc None (axiom_predicate R). Proof. intros. unfold axiom_predicate. dd. Qed.
#[local] Hint Resolve d_axiom_predicate : disc.
Lemma d_spec_predicate : disc None (spec_predicate R). Proof. intros. unfold spec_predicate. dd. Qed.
#[local] Hint Resolve d_spec_predicate : disc.
Lemma d_update_stmt : disc None (update_stmt R). Proof. intros. unfold update_stmt. dd. Qed.
#[local] Hint Resolve d_update_stmt : disc.
Lemma d_pragma_stmt : disc None (pragma_stmt R). Proof. intros. unfold pragma_stmt. dd. Qed.
#[local] Hint Resolve d_pragma_stmt : disc.
Lemma d_schema_field : disc None (schema_field R). Proof. intros. unfold schema_field. dd. Qed.
#[local] Hint Resolve d_schema_field : disc.
Lemma d_global_variable : disc None (global_variable R). Proof. intros. unfold global_variable. dd. Qed.
#[local] Hint Resolve d_global_variable : disc.
Lemma d_schema_lit : disc None (schema_lit R). Proof. intros. unfold schema_lit. dd. Qed.
#[local] Hint Resolve d_schema_lit : disc.
Lemma d_inner_expr : forall bp, disc None (inner_expr R bp). Proof. intros. unfold inner_expr. dd. Qed.
#[local] Hint Resolve d_inner_expr : disc.
Lemma d_include_if_else_expr : disc None (include_if_else_expr R). Proof. intros. unfold include_if_else_expr. dd. Qed.
#[local] Hint Resolve d_include_if_else_expr : disc.
Lemma d_include_schema_expr : disc None (include_schema_expr R). Proof. intros. unfold include_schema_expr. dd. Qed.
#[local] Hint Resolve d_include_schema_expr : disc.
Lemma d_include_schema : disc None (include_schema R). Proof. intros. unfold include_schema. dd. Qed.
#[local] Hint Resolve d_include_schema : disc.
Lemma d_wildcard_ident : disc None wildcard_ident. Proof. exact d_wildcard_ident_. Qed.
#[local] Hint Resolve d_wildcard_ident : disc.
Lemma d_opt_wildcard_pattern_modifier : disc None opt_wildcard_pattern_modifier. Proof. intros. unfold opt_wildcard_pattern_modifier. dd. Qed.
#[local] Hint Resolve d_opt_wildcard_pattern_modifier : disc.
Lemma d_wildcard_pattern : disc None wildcard_pattern. Proof. intros. unfold wildcard_pattern. dd. Qed.
#[local] Hint Resolve d_wildcard_pattern : disc.
Lemma d_wildcard_pattern_list : disc None wildcard_pattern_list. Proof. intros. unfold wildcard_pattern_list. dd. Qed.
#[local] Hint Resolve d_wildcard_pattern_list : disc.
Lemma d_apply_to : disc None apply_to. Proof. intros. unfold apply_to. dd. Qed.
#[local] Hint Resolve d_apply_to : disc.
Lemma d_apply_except : disc None apply_except. Proof. intros. unfold apply_except. dd. Qed.
#[local] Hint Resolve d_apply_except : disc.
Lemma d_apply_schema : disc None (apply_schema R). Proof. intros. unfold apply_schema. dd. Qed.
#[local] Hint Resolve d_apply_schema : disc.
Lemma d_opt_inner_public_modifier : disc None opt_inner_public_modifier. Proof. intros. unfold opt_inner_public_modifier. dd. Qed.
#[local] Hint Resolve d_opt_inner_public_modifier : disc.
Lemma d_visibility_modifier : disc None visibility_modifier. Proof. intros. unfold visibility_modifier. dd. Qed.
#[local] Hint Resolve d_visibility_modifier : disc.
Lemma d_opt_fun_modifiers : disc None opt_fun_modifiers. Proof. intros. unfold opt_fun_modifiers. dd. Qed.
#[local] Hint Resolve d_opt_fun_modifiers : disc.
Lemma d_opt_ret_type : disc None (opt_ret_type R). Proof. intros. unfold opt_ret_type. dd. Qed.
#[local] Hint Resolve d_opt_ret_type : disc.
Lemma d_acquires : disc None (acquires R). Proof. intros. unfold acquires. dd. Qed.
#[local] Hint Resolve d_acquires : disc.
Lemma d_fun_signature : forall spec_fun, disc None (fun_signature R spec_fun). Proof. intros. unfold fun_signature. dd. Qed.
#[local] Hint Resolve d_fun_signature : disc.
Lemma d_fun_body : disc None (fun_body R). Proof. intros. unfold fun_body. dd. Qed.
#[local] Hint Resolve d_fun_body : disc.
Lemma d_spec_inline_function : disc None (spec_inline_function R). Proof. intros. unfold spec_inline_function. dd. Qed.
#[local] Hint Resolve d_spec_inline_function : disc.
Lemma d_use_rest : disc None (use_rest R). Proof. intros. unfold use_rest. dd. Qed.
#[local] Hint Resolve d_use_rest : disc.
Lemma d_use_alias : disc None use_alias. Proof. intros. unfold use_alias. dd. Qed.
#[local] Hint Resolve d_use_alias : disc.
Lemma d_use_group : disc None (use_group R). Proof. intros. unfold use_group. dd. Qed.
#[local] Hint Resolve d_use_group : disc.
Lemma d_use_speck_body : forall is_top_level, disc None (use_speck_body R is_top_level). Proof. intros. unfold use_speck_body. dd. Qed.
#[local] Hint Resolve d_use_speck_body : disc.
Lemma d_let_stmt : forall allow_post, disc None (let_stmt R allow_post). Proof. intros. unfold let_stmt. dd. Qed.
#[local] Hint Resolve d_let_stmt : disc.
Lemma d_proof : disc None (proof R). Proof. intros. unfold proof. dd. Qed.
#[local] Hint Resolve d_proof : disc.
Lemma d_lemma : disc None (lemma R). Proof. intros. unfold lemma. dd. Qed.
#[local] Hint Resolve d_lemma : disc.
Lemma d_apply_lemma : disc None (apply_lemma R). Proof. intros. unfold apply_lemma. dd. Qed.
#[local] Hint Resolve d_apply_lemma : disc.
Lemma d_forall_apply_lemma : disc None (forall_apply_lemma R). Proof. intros. unfold forall_apply_lemma. dd. Qed.
#[local] Hint Resolve d_forall_apply_lemma : disc.
Lemma d_post_stmt : disc None (post_stmt R). Proof. intros. unfold post_stmt. dd. Qed.
#[local] Hint Resolve d_post_stmt : disc.
Lemma d_split_stmt : disc None (split_stmt R). Proof. intros. unfold split_stmt. dd. Qed.
#[local] Hint Resolve d_split_stmt : disc.
Lemma d_expr_stmt : disc None (expr_stmt R). Proof. intros. unfold expr_stmt. dd. Qed.
#[local] Hint Resolve d_expr_stmt : disc.
Lemma d_inline_use : disc None (inline_use R). Proof. intros. unfold inline_use. dd. Qed.
#[local] Hint Resolve d_inline_use : disc.
Lemma d_spec_stmt : disc None (spec_stmt R). Proof. intros. unfold spec_stmt. dd. Qed.
#[local] Hint Resolve d_spec_stmt : disc.
Lemma d_proof_stmt : disc None (proof_stmt R). Proof. intros. unfold proof_stmt. dd. Qed.
#[local] Hint Resolve d_proof_stmt : disc.
Lemma d_stmt_rest : disc None (stmt_rest R). Proof. intros. unfold stmt_rest. dd. Qed.
#[local] Hint Resolve d_stmt_rest : disc.
Lemma d_stmt_body : disc None (stmt_body R). Proof. intros. unfold stmt_body. dd. Qed.
#[local] Hint Resolve d_stmt_body : disc.
Lemma d_const_ : disc None (const_ R). Proof. intros. unfold const_. dd. Qed.
#[local] Hint Resolve d_const_ : disc.
Lemma d_friend_decl : disc None (friend_decl R). Proof. intros. unfold friend_decl. dd. Qed.
#[local] Hint Resolve d_friend_decl : disc.
Lemma d_opt_abilities_list : disc None opt_abilities_list. Proof. intros. unfold opt_abilities_list. dd. Qed.
#[local] Hint Resolve d_opt_abilities_list : disc.
Lemma d_opt_abilities_list_with_semicolon : disc None opt_abilities_list_with_semicolon. Proof. intros. unfold opt_abilities_list_with_semicolon. dd. Qed.
#[local] Hint Resolve d_opt_abilities_list_with_semicolon : disc.
Lemma d_named_field : disc None (named_field R). Proof. intros. unfold named_field. dd. Qed.
#[local] Hint Resolve d_named_field : disc.
Lemma d_named_field_list : disc None (named_field_list R). Proof. intros. unfold named_field_list. dd. Qed.
#[local] Hint Resolve d_named_field_list : disc.
Lemma d_tuple_field_list : disc None (tuple_field_list R). Proof. intros. unfold tuple_field_list. dd. Qed.
#[local] Hint Resolve d_tuple_field_list : disc.
Lemma d_struct_ : disc None (struct_ R). Proof. intros. unfold struct_. dd. Qed.
#[local] Hint Resolve d_struct_ : disc.
Lemma d_enum_variant : disc None (enum_variant R). Proof. intros. unfold enum_variant. dd. Qed.
#[local] Hint Resolve d_enum_variant : disc.
Lemma d_enum_variant_list : disc None (enum_variant_list R). Proof. intros. unfold enum_variant_list. dd. Qed.
#[local] Hint Resolve d_enum_variant_list : disc.
Lemma d_enum_ : disc None (enum_ R). Proof. intros. unfold enum_. dd. Qed.
#[local] Hint Resolve d_enum_ : disc.
Lemma d_function : disc None (function R). Proof. intros. unfold function. dd. Qed.
#[local] Hint Resolve d_function : disc.
Lemma d_spec_function : disc None (spec_function R). Proof. intros. unfold spec_function. dd. Qed.
#[local] Hint Resolve d_spec_function : disc.
Lemma d_item_spec_type_param : disc None item_spec_type_param. Proof. intros. unfold item_spec_type_param. dd. Qed.
#[local] Hint Resolve d_item_spec_type_param : disc.
Lemma d_item_spec_type_param_list : disc None item_spec_type_param_list. Proof. intros. unfold item_spec_type_param_list. dd. Qed.
#[local] Hint Resolve d_item_spec_type_param_list : disc.
Lemma d_item_spec_param : disc None (item_spec_param R). Proof. intros. unfold item_spec_param. dd. Qed.
#[local] Hint Resolve d_item_spec_param : disc.
Lemma d_item_spec_param_list : disc None (item_spec_param_list R). Proof. intros. unfold item_spec_param_list. dd. Qed.
#[local] Hint Resolve d_item_spec_param_list : disc.
Lemma d_item_spec_signature : disc None (item_spec_signature R). Proof. intros. unfold item_spec_signature. dd. Qed.
#[local] Hint Resolve d_item_spec_signature : disc.
Lemma d_item_spec : disc None (item_spec R). Proof. intros. unfold item_spec. dd. Qed.
#[local] Hint Resolve d_item_spec : disc.
Lemma d_schema : disc None (schema R). Proof. intros. unfold schema. dd. Qed.
#[local] Hint Resolve d_schema : disc.
Lemma d_some_closing : forall m, disc None m -> disc None (some_closing m). Proof. intros m D. unfold some_closing. dd. Qed.
#[local] Hint Resolve d_some_closing : disc.
Lemma d_opt_item : disc None (opt_item R). Proof. intros. unfold opt_item. dd. Qed.
#[local] Hint Resolve d_opt_item : disc.
Lemma d_item : disc None (item R). Proof. intros. unfold item. dd. Qed.
#[local] Hint Resolve d_item : disc.
Lemma d_item_list : disc None (item_list R). Proof. intros. unfold item_list. dd. Qed.
#[local] Hint Resolve d_item_list : disc.
Lemma d_module : disc None (module R). Proof. intros. unfold module. dd. Qed.
#[local] Hint Resolve d_module : disc.
Lemma d_address_def : disc None (address_def R). Proof. intros. unfold address_def. dd. Qed.
#[local] Hint Resolve d_address_def : disc.
Lemma d_module_spec : disc None (module_spec R). Proof. intros. unfold module_spec. dd. Qed.
#[local] Hint Resolve d_module_spec : disc.
Lemma d_script : disc None (script R). Proof. intros. unfold script. dd. Qed.
#[local] Hint Resolve d_script : disc.
Lemma d_top_item : disc None (top_item R). Proof. intros. unfold top_item. dd. Qed.
#[local] Hint Resolve d_top_item : disc.

Lemma disc_unfold : disc_recs (unfold_recs R).
Proof. constructor; cbn [unfold_recs r_path r_type r_pattern r_expr r_stmt r_attr_item r_use_speck]; auto with disc nocore. Qed.
End Functions.
Theorem disc_run : forall n, disc_recs (run n).
Proof. induction n as [|n IH]; [constructor; intros; intros e p f rest l0 ? ? ? ?; exact I|]. now apply disc_unfold. Qed.
