(** The grammar terminates: a judgement [tot] (GrammarTot.v) for every function of the grammar, in the order of
    GrammarModel.v.  The least allowance [d] of each lemma is the rank of what the function can reach without
    consuming a token. *)
From Coq Require Import String.
From Verif Require Import Base SyntaxKind ParserModel ParserSpec ParserProofs ParserProofs2 TreeSinkProps AddressModel GrammarBase GrammarModel GrammarDisc GrammarDiscAll GrammarTot.
Close Scope string_scope.

#[export] Hint Resolve nz_kwi nz_path_start nz_assert_ident nz_funmod nz_vismod nz_behavior nz_or : nz.
#[export] Hint Extern 1 (nz (t_at _)) => apply nz_at; discriminate : nz.
#[export] Hint Extern 1 (nz (t_nth_at _ _)) => apply nz_nth_at; discriminate : nz.
#[export] Hint Extern 1 (nz (t_cur _)) => apply nz_cur; discriminate : nz.
#[export] Hint Extern 1 (nz (t_ts _)) => apply nz_ts; reflexivity : nz.
#[export] Hint Extern 1 (nz (t_nth_ts _ _)) => apply nz_nth_ts; reflexivity : nz.
#[export] Hint Extern 2 (nz (t_and _ _)) => solve [apply nz_and; auto with nz nocore] : nz.
#[export] Hint Extern 3 (nz (t_and _ _)) => solve [apply nz_and2; auto with nz nocore] : nz.
#[export] Hint Resolve t_eat t_bump t_remap t_bump_any t_expect t_expect_msg t_error_and_bump t_error_and_recover t_err t_crash : tot.
#[export] Hint Extern 1 (okk _ = true) => first [reflexivity|assumption] : tot.
#[export] Hint Extern 1 (_ <= _) => first [assumption|lia] : tot.

(** whether a computation consumes something whatever it returns, from its shape *)
Ltac moves m :=
  lazymatch m with
  | mbind ?a ?k => moves_first a
  | node _ ?b => moves b
  | with_rs _ ?b => moves b
  | with_ts _ ?b => moves b
  | with_sk _ ?b => moves b
  | reset_rs ?b => moves b
  | preceded _ ?b => moves b
  | bump _ => constr:(true)
  | remap _ => constr:(true)
  | value_arg_list _ => constr:(true)
  | attr_item_list _ _ _ => constr:(true)
  | _ => constr:(false)
  end
with moves_first m :=
  lazymatch m with
  | assert_ _ => constr:(true)
  | _ => moves m
  end.
Ltac known m :=
  lazymatch m with
  | mbind _ _ => fail | node _ _ => fail | marked _ => fail | preceded _ _ => fail | checked _ => fail
  | with_rs _ _ => fail | with_ts _ _ => fail | with_sk _ _ => fail | reset_rs _ => fail
  | loop _ _ => fail | iterate_to_EOF _ _ _ => fail | delimited _ _ _ _ => fail
  | match _ with _ => _ end => fail | ret _ => fail | crash => fail
  | plain _ => fail | done _ => fail | some_closing _ => fail | with_marker _ => fail | the_cm _ => fail | unary _ _ _ _ => fail
  | wrap_with_error _ _ => fail | type_args_rest _ _ => fail
  | _ => idtac
  end.
Ltac unask := unfold at_, nth_at_, cur, at_ts, kwi, cur_kw, rs_test.
Ltac pick := intros; cbv beta;
  match goal with |- if ?c then ?X else ?Y =>
    let c' := eval cbv beta delta [ff yes] in c in
    lazymatch c' with true => change X | false => change Y | _ => change (if c' then X else Y); destruct c' end
  end.
Ltac gt :=
  intros; cbv beta zeta;
  lazymatch goal with
  | |- tot _ _ _ (mbind ?m ?k) _ =>
      lazymatch m with
      | ask _ => first [apply t_bind_ask_nz; [solve [auto 6 with nz nocore]| |] | apply t_bind_ask]; gt
      | at_ _ => unfold at_ at 1; gt
      | nth_at_ _ _ => unfold nth_at_ at 1; gt
      | cur _ => unfold cur at 1; gt
      | at_ts _ => unfold at_ts at 1; gt
      | kwi _ => unfold kwi at 1; gt
      | cur_kw _ => unfold cur_kw at 1; gt
      | rs_test _ => unfold rs_test at 1; gt
      | assert_ _ => first [apply t_bind_assert; [solve [auto 6 with nz nocore]|] | eapply (t_bind _ _ _ (assert_ _) _ ff); [apply t_assert|pick]]; gt
      | outer_rs => apply t_bind_read; gt
      | stmt_kind_ => apply t_bind_read; gt
      | pos_ => apply t_bind_read; gt
      | debug_ => apply t_bind_read; gt
      | current_op => apply t_bind_read; gt
      | err _ => apply t_bind_err; gt
      | skip => apply t_bind_read; gt
      | ret _ => apply t_bind_read; gt
      | _ =>
          tryif known m then (eapply t_bind; [solve [eauto 4 with tot nocore]|pick]; gt) else
          (let b := moves m in
           lazymatch b with
           | true => first [apply (t_bind _ _ _ m k yes); [solve [gt]|pick] | apply (t_bind _ _ _ m k ff); [gt|pick]]; gt
           | false => apply (t_bind _ _ _ m k ff); [gt|pick]; gt
           end)
      end
  | |- tot _ _ _ (ret _) _ => apply t_ret; reflexivity
  | |- tot _ _ _ skip _ => apply t_ret; reflexivity
  | |- tot _ _ _ crash _ => apply t_crash
  | |- tot _ _ _ (match ?x with _ => _ end) _ => destruct x; gt
  | |- tot _ _ _ (plain _) _ => unfold plain; gt
  | |- tot _ _ _ (done _) _ => unfold done; gt
  | |- tot _ _ _ (some_closing _) _ => unfold some_closing; gt
  | |- tot _ _ _ (with_marker _) _ => unfold with_marker; gt
  | |- tot _ _ _ (the_cm _) _ => unfold the_cm; gt
  | |- tot _ _ _ (unary _ _ _ _) _ => unfold unary; gt
  | |- tot _ _ _ (wrap_with_error _ _) _ => unfold wrap_with_error; gt
  | |- tot _ _ _ (type_args_rest _ _) _ => unfold type_args_rest; gt
  | |- tot _ _ _ (node _ _) ff => apply (t_node _ _ _ _ _ false); gt
  | |- tot _ _ _ (node _ _) yes => apply (t_node _ _ _ _ _ true); gt
  | |- tot _ _ _ (node _ _) _ => apply t_node; gt
  | |- tot _ _ _ (preceded _ _) ff => apply (t_preceded _ _ _ _ _ false); gt
  | |- tot _ _ _ (preceded _ _) yes => apply (t_preceded _ _ _ _ _ true); gt
  | |- tot _ _ _ (preceded _ _) _ => apply t_preceded; gt
  | |- tot _ _ _ (marked _) _ => apply t_marked; gt
  | |- tot _ _ _ (checked _) _ => apply t_checked; gt
  | |- tot _ _ _ (with_rs _ _) _ => apply t_local; gt
  | |- tot _ _ _ (with_ts _ _) _ => apply t_local; gt
  | |- tot _ _ _ (with_sk _ _) _ => apply t_local; gt
  | |- tot _ _ _ (reset_rs _) _ => apply t_local; gt
  | |- tot _ _ _ (loop _ _) _ => apply t_loop; gt
  | |- tot _ _ _ (iterate_to_EOF _ _ _) _ => apply t_iterate; gt
  | |- tot _ _ _ (delimited _ _ _ _) _ => apply t_delimited; [solve [auto with tot nocore]|gt]
  | |- tot _ _ _ _ _ => first [solve [eauto 4 with tot nocore] | eapply t_weak; [solve [eauto 4 with tot nocore]|solve [discriminate|reflexivity|auto]]]
  end.
(** the recursive functions *)
Section Recs.
Variable n : nat.
Variable R : recs.
Record tot_recs : Prop := mkTot {
  tr_path : forall d z m, 1 <= d -> tot n d z (r_path R m) ff;
  tr_type : forall d z rs, 2 <= d -> tot n d z (r_type R rs) ff;
  tr_pattern : forall d z, 2 <= d -> tot n d z (r_pattern R) ff;
  tr_expr : forall d z r bp, 2 <= d -> tot n d z (r_expr R r bp) ff;
  tr_stmt : forall d z, 3 <= d -> tot n d z (r_stmt R) ff;
  tr_attr_item : forall d z, 2 <= d -> tot n d z (r_attr_item R) ff;
  tr_use_speck : forall d z b, 2 <= d -> tot n d z (r_use_speck R b) ff
}.
End Recs.
Section Functions.
Variable n : nat.
Variable R : recs.
Hypothesis HR : tot_recs n R.
Lemma t_path : forall d z m, 1 <= d -> tot n d z (path R m) ff. Proof. exact (tr_path _ _ HR). Qed.
Lemma t_type_or_recover : forall d z rs, 2 <= d -> tot n d z (type_or_recover R rs) ff. Proof. exact (tr_type _ _ HR). Qed.
Lemma t_pattern : forall d z, 2 <= d -> tot n d z (pattern R) ff. Proof. exact (tr_pattern _ _ HR). Qed.
Lemma t_expr_bp : forall d z r bp, 2 <= d -> tot n d z (expr_bp R r bp) ff. Proof. exact (tr_expr _ _ HR). Qed.
Lemma t_stmt : forall d z, 3 <= d -> tot n d z (stmt R) ff. Proof. exact (tr_stmt _ _ HR). Qed.
Lemma t_attr_item : forall d z, 2 <= d -> tot n d z (attr_item R) ff. Proof. exact (tr_attr_item _ _ HR). Qed.
Lemma t_use_speck : forall d z b, 2 <= d -> tot n d z (use_speck R b) ff. Proof. exact (tr_use_speck _ _ HR). Qed.
#[local] Hint Resolve t_path t_type_or_recover t_pattern t_expr_bp t_stmt t_attr_item t_use_speck : tot.
Lemma t_value_address : forall d z, tot n d z value_address yes. Proof. intros; unfold value_address; gt. Qed.
#[local] Hint Resolve t_value_address : tot.
Lemma t_any_address : forall d z, tot n d z any_address ff. Proof. intros; unfold any_address; gt. Qed.
#[local] Hint Resolve t_any_address : tot.
Lemma t_name_or_recover : forall d z extra, tot n d z (name_or_recover extra) ff. Proof. intros; unfold name_or_recover; gt. Qed.
#[local] Hint Resolve t_name_or_recover : tot.
Lemma t_name : forall d z, tot n d z name ff. Proof. intros; unfold name; gt. Qed.
#[local] Hint Resolve t_name : tot.
Lemma t_name_ref_or_recover : forall d z, tot n d z name_ref_or_recover ff. Proof. intros; unfold name_ref_or_recover; gt. Qed.
#[local] Hint Resolve t_name_ref_or_recover : tot.
Lemma t_name_ref : forall d z, tot n d z name_ref ff. Proof. intros; unfold name_ref; gt. Qed.
#[local] Hint Resolve t_name_ref : tot.
Lemma t_ability : forall d z, tot n d z ability ff. Proof. intros; unfold ability; gt. Qed.
#[local] Hint Resolve t_ability : tot.
Lemma t_abilities_list : forall d z, tot n d z abilities_list ff. Proof. intros; unfold abilities_list; gt. Qed.
#[local] Hint Resolve t_abilities_list : tot.
Lemma t_type_ : forall d z, 2 <= d -> tot n d z (type_ R) ff. Proof. intros; unfold type_; gt. Qed.
#[local] Hint Resolve t_type_ : tot.
Lemma t_path_type : forall d z, 1 <= d -> tot n d z (path_type R) ff. Proof. intros; unfold path_type; gt. Qed.
#[local] Hint Resolve t_path_type : tot.
Lemma t_type_annotation : forall d z, tot n d z (type_annotation R) yes. Proof. intros; unfold type_annotation; gt. Qed.
#[local] Hint Resolve t_type_annotation : tot.
Lemma t_type_arg : forall d z is_type, 2 <= d -> tot n d z (type_arg R is_type) ff. Proof. intros; unfold type_arg; gt. Qed.
#[local] Hint Resolve t_type_arg : tot.
Lemma t_opt_type_arg_list_for_type : forall d z, tot n d z (opt_type_arg_list_for_type R) ff. Proof. intros; unfold opt_type_arg_list_for_type; gt. Qed.
#[local] Hint Resolve t_opt_type_arg_list_for_type : tot.
Lemma t_opt_type_arg_list_for_expr : forall d z colon_colon_required, tot n d z (opt_type_arg_list_for_expr R colon_colon_required) ff. Proof. intros; unfold opt_type_arg_list_for_expr; gt. Qed.
#[local] Hint Resolve t_opt_type_arg_list_for_expr : tot.
Lemma t_opt_path_type_arg_list : forall d z mode, tot n d z (opt_path_type_arg_list R mode) ff. Proof. intros; unfold opt_path_type_arg_list; gt. Qed.
#[local] Hint Resolve t_opt_path_type_arg_list : tot.
Lemma t_path_segment : forall d z mode is_first, tot n d z (path_segment R mode is_first) ff. Proof. intros; unfold path_segment; gt. Qed.
#[local] Hint Resolve t_path_segment : tot.
Lemma t_path_loop : forall d z mode c, tot n d z (path_loop R mode c) ff. Proof. intros; unfold path_loop; gt. Qed.
#[local] Hint Resolve t_path_loop : tot.
Lemma t_path_body : forall d z mode, tot n d z (path_body R mode) ff. Proof. intros; unfold path_body; gt. Qed.
#[local] Hint Resolve t_path_body : tot.
Lemma t_colon_ability_bound_list : forall d z, tot n d z colon_ability_bound_list yes. Proof. intros; unfold colon_ability_bound_list; gt. Qed.
#[local] Hint Resolve t_colon_ability_bound_list : tot.
Lemma t_ability_bound_list : forall d z, tot n d z ability_bound_list ff. Proof. intros; unfold ability_bound_list; gt. Qed.
#[local] Hint Resolve t_ability_bound_list : tot.
Lemma t_ref_type : forall d z, tot n d z (ref_type R) yes. Proof. intros; unfold ref_type; gt. Qed.
#[local] Hint Resolve t_ref_type : tot.
Lemma t_lambda_type : forall d z, tot n d z (lambda_type R) ff. Proof. intros; unfold lambda_type; gt. Qed.
#[local] Hint Resolve t_lambda_type : tot.
Lemma t_paren_or_tuple_or_unit_type : forall d z, tot n d z (paren_or_tuple_or_unit_type R) ff. Proof. intros; unfold paren_or_tuple_or_unit_type; gt. Qed.
#[local] Hint Resolve t_paren_or_tuple_or_unit_type : tot.
Lemma t_type_body : forall d z extra, 1 <= d -> tot n d z (type_body R extra) ff. Proof. intros; unfold type_body; gt. Qed.
#[local] Hint Resolve t_type_body : tot.
Lemma t_type_param : forall d z, tot n d z type_param ff. Proof. intros; unfold type_param; gt. Qed.
#[local] Hint Resolve t_type_param : tot.
Lemma t_opt_type_param_list : forall d z, tot n d z opt_type_param_list ff. Proof. intros; unfold opt_type_param_list; gt. Qed.
#[local] Hint Resolve t_opt_type_param_list : tot.
Lemma t_attr_item_list : forall d z lparen rparen, okk lparen = true -> okk rparen = true -> tot n d z (attr_item_list R lparen rparen) yes. Proof. intros; unfold attr_item_list; gt. Qed.
#[local] Hint Resolve t_attr_item_list : tot.
Lemma t_attr : forall d z, tot n d z (attr R) yes. Proof. intros; unfold attr; gt. Qed.
#[local] Hint Resolve t_attr : tot.
Lemma t_attrs : forall d z, tot n d z (attrs R) ff. Proof. intros; unfold attrs; gt. Qed.
#[local] Hint Resolve t_attrs : tot.
Lemma t_expr : forall d z, 2 <= d -> tot n d z (expr R) ff. Proof. intros; unfold expr; gt. Qed.
#[local] Hint Resolve t_expr : tot.
Lemma t_expect_expr : forall d z, 2 <= d -> tot n d z (expect_expr R) ff. Proof. intros; unfold expect_expr; gt. Qed.
#[local] Hint Resolve t_expect_expr : tot.
Lemma t_opt_initializer_expr : forall d z, tot n d z (opt_initializer_expr R) ff. Proof. intros; unfold opt_initializer_expr; gt. Qed.
#[local] Hint Resolve t_opt_initializer_expr : tot.
Lemma t_initializer_expr : forall d z, tot n d z (initializer_expr R) ff. Proof. intros; unfold initializer_expr; gt. Qed.
#[local] Hint Resolve t_initializer_expr : tot.
Lemma t_attr_item_body : forall d z, 1 <= d -> tot n d z (attr_item_body R) ff. Proof. intros; unfold attr_item_body; gt. Qed.
#[local] Hint Resolve t_attr_item_body : tot.
Lemma t_value_arg_list : forall d z, tot n d z (value_arg_list R) yes. Proof. intros; unfold value_arg_list; gt. Qed.
#[local] Hint Resolve t_value_arg_list : tot.
Lemma t_literal : forall d z, tot n d z literal ff. Proof. intros; unfold literal; gt. Qed.
#[local] Hint Resolve t_literal : tot.
Lemma t_literal_pat : forall d z, tot n d z literal_pat ff. Proof. intros; unfold literal_pat; gt. Qed.
#[local] Hint Resolve t_literal_pat : tot.
Lemma t_wildcard_pat : forall d z, tot n d z wildcard_pat yes. Proof. intros; unfold wildcard_pat; gt. Qed.
#[local] Hint Resolve t_wildcard_pat : tot.
Lemma t_ident_pat : forall d z, tot n d z ident_pat ff. Proof. intros; unfold ident_pat; gt. Qed.
#[local] Hint Resolve t_ident_pat : tot.
Lemma t_ident_pat_or_recover : forall d z, tot n d z ident_pat_or_recover ff. Proof. intros; unfold ident_pat_or_recover; gt. Qed.
#[local] Hint Resolve t_ident_pat_or_recover : tot.
Lemma t_tuple_pat_fields : forall d z, tot n d z (tuple_pat_fields R) yes. Proof. intros; unfold tuple_pat_fields; gt. Qed.
#[local] Hint Resolve t_tuple_pat_fields : tot.
Lemma t_struct_pat_field : forall d z, tot n d z (struct_pat_field R) ff. Proof. intros; unfold struct_pat_field; gt. Qed.
#[local] Hint Resolve t_struct_pat_field : tot.
Lemma t_struct_pat_field_list : forall d z, tot n d z (struct_pat_field_list R) yes. Proof. intros; unfold struct_pat_field_list; gt. Qed.
#[local] Hint Resolve t_struct_pat_field_list : tot.
Lemma t_path_pat : forall d z, 1 <= d -> tot n d z (path_pat R) ff. Proof. intros; unfold path_pat; gt. Qed.
#[local] Hint Resolve t_path_pat : tot.
Lemma t_tuple_or_unit_or_paren_pat : forall d z, tot n d z (tuple_or_unit_or_paren_pat R) ff. Proof. intros; unfold tuple_or_unit_or_paren_pat; gt. Qed.
#[local] Hint Resolve t_tuple_or_unit_or_paren_pat : tot.
Lemma t_pattern_body : forall d z, 1 <= d -> tot n d z (pattern_body R) ff. Proof. intros; unfold pattern_body; gt. Qed.
#[local] Hint Resolve t_pattern_body : tot.
Lemma t_param : forall d z, tot n d z (param R) ff. Proof. intros; unfold param; gt. Qed.
#[local] Hint Resolve t_param : tot.
Lemma t_fun_param_list : forall d z, tot n d z (fun_param_list R) yes. Proof. intros; unfold fun_param_list; gt. Qed.
#[local] Hint Resolve t_fun_param_list : tot.
Lemma t_lambda_param : forall d z, tot n d z (lambda_param R) ff. Proof. intros; unfold lambda_param; gt. Qed.
#[local] Hint Resolve t_lambda_param : tot.
Lemma t_lambda_param_list : forall d z, tot n d z (lambda_param_list R) (fun b => b).
Proof.
  intros d z. unfold lambda_param_list. apply (t_bind _ _ _ _ _ (fun x => (fun b => b) (snd x))).
  - apply (t_marked_q _ _ _ _ (fun b => b)).
    + eapply t_weak; [apply (t_bind _ _ _ _ _ yes); [gt|pick; gt]|reflexivity].
    + intros e p a p' H. unfold mbind in H. repeat match type of H with context [match ?x with _ => _ end] => destruct x; try discriminate end; cbv [ret] in H; congruence.
  - intros [o [|]]; cbn [snd]; gt.
Qed.
#[local] Hint Resolve t_lambda_param_list : tot.
Lemma t_stmt_list : forall d z, 3 <= d -> tot n d z (stmt_list R) ff. Proof. intros; unfold stmt_list; gt. Qed.
#[local] Hint Resolve t_stmt_list : tot.
Lemma t_block_expr : forall d z, tot n d z (block_expr R) yes. Proof. intros; unfold block_expr; gt. Qed.
#[local] Hint Resolve t_block_expr : tot.
Lemma t_unexpected_block : forall d z s, tot n d z (unexpected_block R s) ff. Proof. intros; unfold unexpected_block; gt. Qed.
#[local] Hint Resolve t_unexpected_block : tot.
Lemma t_inline_expr : forall d z, 2 <= d -> tot n d z (inline_expr R) ff. Proof. intros; unfold inline_expr; gt. Qed.
#[local] Hint Resolve t_inline_expr : tot.
Lemma t_block_or_inline_expr : forall d z, 2 <= d -> tot n d z (block_or_inline_expr R) ff. Proof. intros; unfold block_or_inline_expr; gt. Qed.
#[local] Hint Resolve t_block_or_inline_expr : tot.
Lemma t_spec_block_expr : forall d z, tot n d z (spec_block_expr R) yes. Proof. intros; unfold spec_block_expr; gt. Qed.
#[local] Hint Resolve t_spec_block_expr : tot.
Lemma t_opt_spec_block_expr : forall d z, tot n d z (opt_spec_block_expr R) ff. Proof. intros; unfold opt_spec_block_expr; gt. Qed.
#[local] Hint Resolve t_opt_spec_block_expr : tot.
Lemma t_quant_binding : forall d z, tot n d z (quant_binding R) ff. Proof. intros; unfold quant_binding; gt. Qed.
#[local] Hint Resolve t_quant_binding : tot.
Lemma t_quant_binding_list : forall d z extra, tot n d z (quant_binding_list R extra) ff. Proof. intros; unfold quant_binding_list; gt. Qed.
#[local] Hint Resolve t_quant_binding_list : tot.
Lemma t_quant_trigger_list : forall d z, tot n d z (quant_trigger_list R) yes. Proof. intros; unfold quant_trigger_list; gt. Qed.
#[local] Hint Resolve t_quant_trigger_list : tot.
Lemma t_opt_where_expr : forall d z, tot n d z (opt_where_expr R) ff. Proof. intros; unfold opt_where_expr; gt. Qed.
#[local] Hint Resolve t_opt_where_expr : tot.
Lemma t_weight : forall d z, tot n d z (weight R) ff. Proof. intros; unfold weight; gt. Qed.
#[local] Hint Resolve t_weight : tot.
Lemma t_quant_expr : forall d z kw k, okk kw = true -> okk k = true -> tot n d z (quant_expr R kw k) ff. Proof. intros; unfold quant_expr; gt. Qed.
#[local] Hint Resolve t_quant_expr : tot.
Lemma t_choose_expr : forall d z, tot n d z (choose_expr R) ff. Proof. intros; unfold choose_expr; gt. Qed.
#[local] Hint Resolve t_choose_expr : tot.
Lemma t_struct_lit_field_list : forall d z, tot n d z (struct_lit_field_list R) yes. Proof. intros; unfold struct_lit_field_list; gt. Qed.
#[local] Hint Resolve t_struct_lit_field_list : tot.
Lemma t_path_expr : forall d z, 1 <= d -> tot n d z (path_expr R) ff. Proof. intros; unfold path_expr; gt. Qed.
#[local] Hint Resolve t_path_expr : tot.
Lemma t_vector_lit_expr : forall d z, tot n d z (vector_lit_expr R) yes. Proof. intros; unfold vector_lit_expr; gt. Qed.
#[local] Hint Resolve t_vector_lit_expr : tot.
Lemma t_top_level_expr_in_stmt : forall d z, 2 <= d -> tot n d z (top_level_expr_in_stmt R) ff. Proof. intros; unfold top_level_expr_in_stmt; gt. Qed.
#[local] Hint Resolve t_top_level_expr_in_stmt : tot.
Lemma t_match_arm : forall d z, 2 <= d -> tot n d z (match_arm R) ff. Proof. intros; unfold match_arm; gt. Qed.
#[local] Hint Resolve t_match_arm : tot.
Lemma t_match_arm_list : forall d z, 2 <= d -> tot n d z (match_arm_list R) ff. Proof. intros; unfold match_arm_list; gt. Qed.
#[local] Hint Resolve t_match_arm_list : tot.
Lemma t_match_expr : forall d z, tot n d z (match_expr R) ff. Proof. intros; unfold match_expr; gt. Qed.
#[local] Hint Resolve t_match_expr : tot.
Lemma t_assert_macro_expr : forall d z, tot n d z (assert_macro_expr R) yes. Proof. intros; unfold assert_macro_expr; gt. Qed.
#[local] Hint Resolve t_assert_macro_expr : tot.
Lemma t_paren_or_tuple_or_annotated_expr : forall d z, tot n d z (paren_or_tuple_or_annotated_expr R) ff. Proof. intros; unfold paren_or_tuple_or_annotated_expr; gt. Qed.
#[local] Hint Resolve t_paren_or_tuple_or_annotated_expr : tot.
Lemma t_condition : forall d z, 2 <= d -> tot n d z (condition R) ff. Proof. intros; unfold condition; gt. Qed.
#[local] Hint Resolve t_condition : tot.
Lemma t_if_expr : forall d z, tot n d z (if_expr R) yes. Proof. intros; unfold if_expr; gt. Qed.
#[local] Hint Resolve t_if_expr : tot.
Lemma t_label_decl : forall d z, tot n d z label_decl yes. Proof. intros; unfold label_decl; gt. Qed.
#[local] Hint Resolve t_label_decl : tot.
Lemma t_loop_rest : forall d z, tot n d z (loop_rest R) yes. Proof. intros; unfold loop_rest; gt. Qed.
#[local] Hint Resolve t_loop_rest : tot.
Lemma t_for_condition : forall d z, tot n d z (for_condition R) ff. Proof. intros; unfold for_condition; gt. Qed.
#[local] Hint Resolve t_for_condition : tot.
Lemma t_for_rest : forall d z, tot n d z (for_rest R) yes. Proof. intros; unfold for_rest; gt. Qed.
#[local] Hint Resolve t_for_rest : tot.
Lemma t_while_rest : forall d z, tot n d z (while_rest R) yes. Proof. intros; unfold while_rest; gt. Qed.
#[local] Hint Resolve t_while_rest : tot.
Lemma t_opt_expr : forall d z, 2 <= d -> tot n d z (opt_expr R) ff. Proof. intros; unfold opt_expr; gt. Qed.
#[local] Hint Resolve t_opt_expr : tot.
Lemma t_opt_label : forall d z, tot n d z opt_label ff. Proof. intros; unfold opt_label; gt. Qed.
#[local] Hint Resolve t_opt_label : tot.
Lemma t_return_expr : forall d z, tot n d z (return_expr R) yes. Proof. intros; unfold return_expr; gt. Qed.
#[local] Hint Resolve t_return_expr : tot.
Lemma t_abort_expr : forall d z, tot n d z (abort_expr R) yes. Proof. intros; unfold abort_expr; gt. Qed.
#[local] Hint Resolve t_abort_expr : tot.
Lemma t_continue_expr : forall d z, tot n d z continue_expr yes. Proof. intros; unfold continue_expr; gt. Qed.
#[local] Hint Resolve t_continue_expr : tot.
Lemma t_break_expr : forall d z, tot n d z (break_expr R) yes. Proof. intros; unfold break_expr; gt. Qed.
#[local] Hint Resolve t_break_expr : tot.
Lemma t_labelled : forall d z, tot n d z (labelled R) ff. Proof. intros; unfold labelled; gt. Qed.
#[local] Hint Resolve t_labelled : tot.
Lemma t_atom_rest : forall d z, 1 <= d -> tot n d z (atom_rest R) ff. Proof. intros; unfold atom_rest; gt. Qed.
#[local] Hint Resolve t_atom_rest : tot.
Lemma t_atom_expr : forall d z, 1 <= d -> tot n d z (atom_expr R) ff. Proof. intros; unfold atom_expr; gt. Qed.
#[local] Hint Resolve t_atom_expr : tot.
Lemma t_call_expr : forall d z c, tot n d z (call_expr R c) yes. Proof. intros; unfold call_expr; gt. Qed.
#[local] Hint Resolve t_call_expr : tot.
Lemma t_index_expr : forall d z c, tot n d z (index_expr R c) yes. Proof. intros; unfold index_expr; gt. Qed.
#[local] Hint Resolve t_index_expr : tot.
Lemma t_postfix_dot_expr : forall d z c, tot n d z (postfix_dot_expr R c) yes. Proof. intros; unfold postfix_dot_expr; gt. Qed.
#[local] Hint Resolve t_postfix_dot_expr : tot.
Lemma t_postfix_expr : forall d z s, tot n d z (postfix_expr R s) ff. Proof. intros; unfold postfix_expr; gt. Qed.
#[local] Hint Resolve t_postfix_expr : tot.
Lemma t_is_expr : forall d c, tot n d true (is_expr R c) yes. Proof. intros; unfold is_expr; gt. Qed.
#[local] Hint Resolve t_is_expr : tot.
Lemma t_cast_expr : forall d z c, tot n d z (cast_expr R c) yes. Proof. intros; unfold cast_expr; gt. Qed.
#[local] Hint Resolve t_cast_expr : tot.
Lemma t_behavior_predicate : forall d z, tot n d z (behavior_predicate R) yes. Proof. intros; unfold behavior_predicate; gt. Qed.
#[local] Hint Resolve t_behavior_predicate : tot.
Lemma t_lhs : forall d z r, 1 <= d -> tot n d z (lhs R r) ff. Proof. intros; unfold lhs; gt. Qed.
#[local] Hint Resolve t_lhs : tot.
Lemma t_expr_loop : forall d z r bp c, 1 <= d -> tot n d z (expr_loop R r bp c) ff.
Proof.
  intros d z r bp c D. unfold expr_loop. apply t_loop. clear c. intros c. unfold at_ at 1. apply t_bind_read. intros is_range. intros e p S F Z. unfold mbind at 1. unfold current_op at 1.
  set (x := if t_cur IDENT e p && t_kw "is" e p then (2, IS_KW) else op_of p). assert (K : okk (snd x) = true) by (subst x; destruct (_ && _); [reflexivity|apply op_okk]). destruct x as [op_bp op]. cbn [snd] in K.
  revert e p S F Z. match goal with |- forall e p, _ -> _ -> _ -> match ?m e p with _ => _ end => change (tot n d false m inl_) end. gt.
Qed.
#[local] Hint Resolve t_expr_loop : tot.
Lemma t_expr_bp_body : forall d z r bp, 1 <= d -> tot n d z (expr_bp_body R r bp) ff. Proof. intros; unfold expr_bp_body; gt. Qed.
#[local] Hint Resolve t_expr_bp_body : tot.
Lemma t_opt_predicate_property_list : forall d z, tot n d z opt_predicate_property_list ff. Proof. intros; unfold opt_predicate_property_list; gt. Qed.
#[local] Hint Resolve t_opt_predicate_property_list : tot.
Lemma t_predicate_rest : forall d z kw, okk kw = true -> 2 <= d -> tot n d z (predicate_rest R kw) ff. Proof. intros; unfold predicate_rest; gt. Qed.
#[local] Hint Resolve t_predicate_rest : tot.
Lemma t_condition_predicate : forall d z, 2 <= d -> tot n d z (condition_predicate R) ff. Proof. intros; unfold condition_predicate; gt. Qed.
#[local] Hint Resolve t_condition_predicate : tot.
Lemma t_aborts_if_predicate : forall d z, tot n d z (aborts_if_predicate R) ff. Proof. intros; unfold aborts_if_predicate; gt. Qed.
#[local] Hint Resolve t_aborts_if_predicate : tot.
Lemma t_opt_emits_condition : forall d z, tot n d z (opt_emits_condition R) ff. Proof. intros; unfold opt_emits_condition; gt. Qed.
#[local] Hint Resolve t_opt_emits_condition : tot.
Lemma t_emits_predicate : forall d z, tot n d z (emits_predicate R) ff. Proof. intros; unfold emits_predicate; gt. Qed.
#[local] Hint Resolve t_emits_predicate : tot.
Lemma t_invariant_predicate : forall d z, tot n d z (invariant_predicate R) ff. Proof. intros; unfold invariant_predicate; gt. Qed.
#[local] Hint Resolve t_invariant_predicate : tot.
Lemma t_aborts_with_predicate : forall d z, tot n d z (aborts_with_predicate R) ff. Proof. intros; unfold aborts_with_predicate; gt. Qed.
#[local] Hint Resolve t_aborts_with_predicate : tot.
Lemma t_axiom_predicate : forall d z, tot n d z (axiom_predicate R) ff. Proof. intros; unfold axiom_predicate; gt. Qed.
#[local] Hint Resolve t_axiom_predicate : tot.
Lemma t_spec_predicate : forall d z, 2 <= d -> tot n d z (spec_predicate R) ff. Proof. intros; unfold spec_predicate; gt. Qed.
#[local] Hint Resolve t_spec_predicate : tot.
Lemma t_update_stmt : forall d z, tot n d z (update_stmt R) ff. Proof. intros; unfold update_stmt; gt. Qed.
#[local] Hint Resolve t_update_stmt : tot.
Lemma t_pragma_stmt : forall d z, tot n d z (pragma_stmt R) ff. Proof. intros; unfold pragma_stmt; gt. Qed.
#[local] Hint Resolve t_pragma_stmt : tot.
Lemma t_schema_field : forall d z, tot n d z (schema_field R) ff. Proof. intros; unfold schema_field; gt. Qed.
#[local] Hint Resolve t_schema_field : tot.
Lemma t_global_variable : forall d z, tot n d z (global_variable R) ff. Proof. intros; unfold global_variable; gt. Qed.
#[local] Hint Resolve t_global_variable : tot.
Lemma t_schema_lit : forall d z, 1 <= d -> tot n d z (schema_lit R) ff. Proof. intros; unfold schema_lit; gt. Qed.
#[local] Hint Resolve t_schema_lit : tot.
Lemma t_inner_expr : forall d z bp, 2 <= d -> tot n d z (inner_expr R bp) ff. Proof. intros; unfold inner_expr; gt. Qed.
#[local] Hint Resolve t_inner_expr : tot.
Lemma t_include_if_else_expr : forall d z, tot n d z (include_if_else_expr R) yes. Proof. intros; unfold include_if_else_expr; gt. Qed.
#[local] Hint Resolve t_include_if_else_expr : tot.
Lemma t_include_schema_expr : forall d z, 2 <= d -> tot n d z (include_schema_expr R) ff. Proof. intros; unfold include_schema_expr; gt. Qed.
#[local] Hint Resolve t_include_schema_expr : tot.
Lemma t_include_schema : forall d z, tot n d z (include_schema R) ff. Proof. intros; unfold include_schema; gt. Qed.
#[local] Hint Resolve t_include_schema : tot.
Lemma t_wildcard_ident : forall d z, tot n d z wildcard_ident ff.
Proof.
  intros d z e p S F Z. unfold wildcard_ident. set (k := wildcard_count _ p 0 0). destruct (e_debug e && _); [exact I|]. destruct (0 <? k mod 256); [|split; auto; split; [apply grows_refl|discriminate]].
  destruct (kind_eqb (current p) EOF); [split; auto; split; [apply grows_refl|discriminate]|].
  assert (L : p_pos p + k <= length (p_toks p)) by (apply wildcard_in; auto; destruct S as (_ & _ & S); lia). assert (Le : k mod 256 <= k) by (apply Nat.mod_le; discriminate).
  destruct (bump_sound p WILDCARD_IDENT (k mod 256) S ltac:(lia)) as (X & Y & _). split; auto. split; auto. discriminate.
Qed.
#[local] Hint Resolve t_wildcard_ident : tot.
Lemma t_opt_wildcard_pattern_modifier : forall d z, tot n d z opt_wildcard_pattern_modifier ff. Proof. intros; unfold opt_wildcard_pattern_modifier; gt. Qed.
#[local] Hint Resolve t_opt_wildcard_pattern_modifier : tot.
Lemma t_wildcard_pattern : forall d z, tot n d z wildcard_pattern ff. Proof. intros; unfold wildcard_pattern; gt. Qed.
#[local] Hint Resolve t_wildcard_pattern : tot.
Lemma t_wildcard_pattern_list : forall d z, tot n d z wildcard_pattern_list ff. Proof. intros; unfold wildcard_pattern_list; gt. Qed.
#[local] Hint Resolve t_wildcard_pattern_list : tot.
Lemma t_apply_to : forall d z, tot n d z apply_to ff. Proof. intros; unfold apply_to; gt. Qed.
#[local] Hint Resolve t_apply_to : tot.
Lemma t_apply_except : forall d z, tot n d z apply_except ff. Proof. intros; unfold apply_except; gt. Qed.
#[local] Hint Resolve t_apply_except : tot.
Lemma t_apply_schema : forall d z, tot n d z (apply_schema R) ff. Proof. intros; unfold apply_schema; gt. Qed.
#[local] Hint Resolve t_apply_schema : tot.
Lemma t_opt_inner_public_modifier : forall d z, tot n d z opt_inner_public_modifier ff. Proof. intros; unfold opt_inner_public_modifier; gt. Qed.
#[local] Hint Resolve t_opt_inner_public_modifier : tot.
Lemma t_visibility_modifier : forall d z, tot n d z visibility_modifier ff. Proof. intros; unfold visibility_modifier; gt. Qed.
#[local] Hint Resolve t_visibility_modifier : tot.
Lemma t_opt_fun_modifiers : forall d z, tot n d z opt_fun_modifiers ff. Proof. intros; unfold opt_fun_modifiers; gt. Qed.
#[local] Hint Resolve t_opt_fun_modifiers : tot.
Lemma t_opt_ret_type : forall d z, tot n d z (opt_ret_type R) ff. Proof. intros; unfold opt_ret_type; gt. Qed.
#[local] Hint Resolve t_opt_ret_type : tot.
Lemma t_acquires : forall d z, tot n d z (acquires R) yes. Proof. intros; unfold acquires; gt. Qed.
#[local] Hint Resolve t_acquires : tot.
Lemma t_fun_signature : forall d z spec_fun, tot n d z (fun_signature R spec_fun) yes. Proof. intros; unfold fun_signature; gt. Qed.
#[local] Hint Resolve t_fun_signature : tot.
Lemma t_fun_body : forall d z, tot n d z (fun_body R) ff. Proof. intros; unfold fun_body; gt. Qed.
#[local] Hint Resolve t_fun_body : tot.
Lemma t_spec_inline_function : forall d z, tot n d z (spec_inline_function R) ff. Proof. intros; unfold spec_inline_function; gt. Qed.
#[local] Hint Resolve t_spec_inline_function : tot.
Lemma t_use_rest : forall d z, tot n d z (use_rest R) yes. Proof. intros; unfold use_rest; gt. Qed.
#[local] Hint Resolve t_use_rest : tot.
Lemma t_use_alias : forall d z, tot n d z use_alias yes. Proof. intros; unfold use_alias; gt. Qed.
#[local] Hint Resolve t_use_alias : tot.
Lemma t_use_group : forall d z, tot n d z (use_group R) yes. Proof. intros; unfold use_group; gt. Qed.
#[local] Hint Resolve t_use_group : tot.
Lemma t_use_speck_body : forall d z is_top_level, 1 <= d -> tot n d z (use_speck_body R is_top_level) ff. Proof. intros; unfold use_speck_body; gt. Qed.
#[local] Hint Resolve t_use_speck_body : tot.
Lemma t_let_stmt : forall d z allow_post, tot n d z (let_stmt R allow_post) yes. Proof. intros; unfold let_stmt; gt. Qed.
#[local] Hint Resolve t_let_stmt : tot.
Lemma t_proof : forall d z, tot n d z (proof R) ff. Proof. intros; unfold proof; gt. Qed.
#[local] Hint Resolve t_proof : tot.
Lemma t_lemma : forall d z, tot n d z (lemma R) ff. Proof. intros; unfold lemma; gt. Qed.
#[local] Hint Resolve t_lemma : tot.
Lemma t_apply_lemma : forall d z, tot n d z (apply_lemma R) ff. Proof. intros; unfold apply_lemma; gt. Qed.
#[local] Hint Resolve t_apply_lemma : tot.
Lemma t_forall_apply_lemma : forall d z, tot n d z (forall_apply_lemma R) ff. Proof. intros; unfold forall_apply_lemma; gt. Qed.
#[local] Hint Resolve t_forall_apply_lemma : tot.
Lemma t_post_stmt : forall d z, tot n d z (post_stmt R) ff. Proof. intros; unfold post_stmt; gt. Qed.
#[local] Hint Resolve t_post_stmt : tot.
Lemma t_split_stmt : forall d z, tot n d z (split_stmt R) ff. Proof. intros; unfold split_stmt; gt. Qed.
#[local] Hint Resolve t_split_stmt : tot.
Lemma t_expr_stmt : forall d z, 2 <= d -> tot n d z (expr_stmt R) ff. Proof. intros; unfold expr_stmt; gt. Qed.
#[local] Hint Resolve t_expr_stmt : tot.
Lemma t_inline_use : forall d z, tot n d z (inline_use R) ff. Proof. intros; unfold inline_use; gt. Qed.
#[local] Hint Resolve t_inline_use : tot.
Lemma t_spec_stmt : forall d z, 2 <= d -> tot n d z (spec_stmt R) ff. Proof. intros; unfold spec_stmt; gt. Qed.
#[local] Hint Resolve t_spec_stmt : tot.
Lemma t_proof_stmt : forall d z, 2 <= d -> tot n d z (proof_stmt R) ff. Proof. intros; unfold proof_stmt; gt. Qed.
#[local] Hint Resolve t_proof_stmt : tot.
Lemma t_stmt_rest : forall d z, 2 <= d -> tot n d z (stmt_rest R) ff. Proof. intros; unfold stmt_rest; gt. Qed.
#[local] Hint Resolve t_stmt_rest : tot.
Lemma t_stmt_body : forall d z, 2 <= d -> tot n d z (stmt_body R) ff. Proof. intros; unfold stmt_body; gt. Qed.
#[local] Hint Resolve t_stmt_body : tot.
Lemma t_const_ : forall d z, tot n d z (const_ R) yes. Proof. intros; unfold const_; gt. Qed.
#[local] Hint Resolve t_const_ : tot.
Lemma t_friend_decl : forall d z, tot n d z (friend_decl R) yes. Proof. intros; unfold friend_decl; gt. Qed.
#[local] Hint Resolve t_friend_decl : tot.
Lemma t_opt_abilities_list : forall d z, tot n d z opt_abilities_list ff. Proof. intros; unfold opt_abilities_list; gt. Qed.
#[local] Hint Resolve t_opt_abilities_list : tot.
Lemma t_opt_abilities_list_with_semicolon : forall d z, tot n d z opt_abilities_list_with_semicolon ff. Proof. intros; unfold opt_abilities_list_with_semicolon; gt. Qed.
#[local] Hint Resolve t_opt_abilities_list_with_semicolon : tot.
Lemma t_named_field : forall d z, tot n d z (named_field R) ff. Proof. intros; unfold named_field; gt. Qed.
#[local] Hint Resolve t_named_field : tot.
Lemma t_named_field_list : forall d z, tot n d z (named_field_list R) yes. Proof. intros; unfold named_field_list; gt. Qed.
#[local] Hint Resolve t_named_field_list : tot.
Lemma t_tuple_field_list : forall d z, tot n d z (tuple_field_list R) yes. Proof. intros; unfold tuple_field_list; gt. Qed.
#[local] Hint Resolve t_tuple_field_list : tot.
Lemma t_struct_ : forall d z, tot n d z (struct_ R) yes. Proof. intros; unfold struct_; gt. Qed.
#[local] Hint Resolve t_struct_ : tot.
Lemma t_enum_variant : forall d z, tot n d z (enum_variant R) ff. Proof. intros; unfold enum_variant; gt. Qed.
#[local] Hint Resolve t_enum_variant : tot.
Lemma t_enum_variant_list : forall d z, tot n d z (enum_variant_list R) yes. Proof. intros; unfold enum_variant_list; gt. Qed.
#[local] Hint Resolve t_enum_variant_list : tot.
Lemma t_enum_ : forall d z, tot n d z (enum_ R) ff. Proof. intros; unfold enum_; gt. Qed.
#[local] Hint Resolve t_enum_ : tot.
Lemma t_function : forall d z, tot n d z (function R) ff. Proof. intros; unfold function; gt. Qed.
#[local] Hint Resolve t_function : tot.
Lemma t_spec_function : forall d z, tot n d z (spec_function R) ff. Proof. intros; unfold spec_function; gt. Qed.
#[local] Hint Resolve t_spec_function : tot.
Lemma t_item_spec_type_param : forall d z, tot n d z item_spec_type_param ff. Proof. intros; unfold item_spec_type_param; gt. Qed.
#[local] Hint Resolve t_item_spec_type_param : tot.
Lemma t_item_spec_type_param_list : forall d z, tot n d z item_spec_type_param_list yes. Proof. intros; unfold item_spec_type_param_list; gt. Qed.
#[local] Hint Resolve t_item_spec_type_param_list : tot.
Lemma t_item_spec_param : forall d z, tot n d z (item_spec_param R) ff. Proof. intros; unfold item_spec_param; gt. Qed.
#[local] Hint Resolve t_item_spec_param : tot.
Lemma t_item_spec_param_list : forall d z, tot n d z (item_spec_param_list R) yes. Proof. intros; unfold item_spec_param_list; gt. Qed.
#[local] Hint Resolve t_item_spec_param_list : tot.
Lemma t_item_spec_signature : forall d z, tot n d z (item_spec_signature R) ff. Proof. intros; unfold item_spec_signature; gt. Qed.
#[local] Hint Resolve t_item_spec_signature : tot.
Lemma t_item_spec : forall d z, tot n d z (item_spec R) ff. Proof. intros; unfold item_spec; gt. Qed.
#[local] Hint Resolve t_item_spec : tot.
Lemma t_schema : forall d z, tot n d z (schema R) yes. Proof. intros; unfold schema; gt. Qed.
#[local] Hint Resolve t_schema : tot.
Lemma t_opt_item : forall d z, tot n d z (opt_item R) ff. Proof. intros; unfold opt_item; gt. Qed.
#[local] Hint Resolve t_opt_item : tot.
Lemma t_item : forall d z, tot n d z (item R) ff. Proof. intros; unfold item; gt. Qed.
#[local] Hint Resolve t_item : tot.
Lemma t_item_list : forall d z, tot n d z (item_list R) yes. Proof. intros; unfold item_list; gt. Qed.
#[local] Hint Resolve t_item_list : tot.
Lemma t_module : forall d z, tot n d z (module R) yes. Proof. intros; unfold module; gt. Qed.
#[local] Hint Resolve t_module : tot.
Lemma t_address_def : forall d z, tot n d z (address_def R) ff. Proof. intros; unfold address_def; gt. Qed.
#[local] Hint Resolve t_address_def : tot.
Lemma t_module_spec : forall d z, tot n d z (module_spec R) yes. Proof. intros; unfold module_spec; gt. Qed.
#[local] Hint Resolve t_module_spec : tot.
Lemma t_script : forall d z, tot n d z (script R) yes. Proof. intros; unfold script; gt. Qed.
#[local] Hint Resolve t_script : tot.

Lemma t_address_def_here : forall d, tot n d true (address_def R) yes. Proof. intros; unfold address_def; gt. Qed.
Lemma gives_bind : forall {A B} (m : M A) (k : A -> M B) (P : B -> Prop), (forall a e p b p', k a e p = Ret b p' -> P b) -> forall e p b p', mbind m k e p = Ret b p' -> P b.
Proof. intros A B m k P H e p b p' E. unfold mbind in E. destruct (m e p); try discriminate. eapply H; eauto. Qed.
Ltac gives := repeat (apply gives_bind; intros ?); intros ? ? ? ? X; cbv [ret] in X; congruence.
(** an item at the top level consumes something *)
Lemma t_top_item : forall d, 3 <= d -> tot n d true (top_item R) yes.
Proof.
  intros d D. unfold top_item. apply (t_bind_z _ _ _ _ _ (fun x => (fun b => b) (snd x))).
  - apply (t_marked_q _ _ _ _ (fun b => b)).
    + apply (t_bind _ _ _ _ _ ff); [gt|pick]. unfold cur, cur_kw. do 3 (apply t_bind_ask_nz; [auto 6 with nz nocore|gt|]).
      apply t_bind_ask_nz; [auto 6 with nz nocore| |gt]. apply (t_bind _ _ _ _ _ yes); [apply t_address_def_here|pick; gt].
    + assert (G : forall e p c p', (module R e p = Ret c p' \/ module_spec R e p = Ret c p' \/ script R e p = Ret c p' \/ address_def R e p = Ret c p') -> c <> Rollback).
      { intros e p c p' [H|[H|[H|H]]]; revert e p c p' H; unfold module, module_spec, script, address_def; gives. }
      intros e p a p' H. unfold mbind, ask in H.
      repeat match type of H with context [match ?x with _ => _ end] => destruct x eqn:?; try discriminate end; cbv [ret] in H; try congruence;
      exfalso; injection H as H _ _; subst; eapply G; eauto.
  - intros [o [|]]; gt.
  - intros [o [|]] H; [discriminate|]. gt.
Qed.
Lemma tot_unfold : tot_recs (S n) (unfold_recs R).
Proof.
  assert (L : forall A (m : M A) d z Q, 1 <= d -> tot n (d - 1) z m Q -> tot (S n) d z m Q) by (intros A m d z Q D T e p So F Z; apply T; auto; lia).
  constructor; cbn [unfold_recs r_path r_type r_pattern r_expr r_stmt r_attr_item r_use_speck]; intros; apply L; try lia.
  - apply t_path_body; lia.
  - apply t_type_body; lia.
  - apply t_pattern_body; lia.
  - apply t_expr_bp_body; lia.
  - apply t_stmt_body; lia.
  - apply t_attr_item_body; lia.
  - apply t_use_speck_body; lia.
Qed.
End Functions.
Theorem tot_run : forall n, tot_recs n (run n).
Proof. induction n as [|n IH]; [constructor; intros; intros e p So F; lia|]. now apply tot_unfold. Qed.
