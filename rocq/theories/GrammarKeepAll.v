(** Error recovery stays inside braces: every function of the grammar. *)
From Coq Require Import String.
From Verif Require AddressProps.
From Verif Require Import Base SyntaxKind ParserModel AddressModel TreeSinkModel TreeSinkSpec TreeSinkProps ParserSpec ParserProofs ParserProofs2 ParserProps GrammarDisc GrammarDiscAll GrammarTot PrecSpec PrecRun GrammarSafe GrammarKeep GrammarBase GrammarModel.
Close Scope string_scope.
Close Scope N_scope.
Open Scope nat_scope.

Lemma reads_two : forall X i a b, reads X i a = true -> reads X i b = true -> str a <> str b -> False.
Proof. intros X i a b H1 H2 N. unfold reads in *. apply andb_prop in H1, H2. destruct H1 as [_ H1], H2 as [_ H2]. apply AddressProps.text_eqb_spec in H1, H2. congruence. Qed.
Section Spec.
Variables (T : toks) (X : list text).
Notation K i k := (kind_at T i = k).
(** the patterns on which recovery leaves the braces, each ruled out *)
Record tame := {
  (** the text of a closing brace and of a semicolon *)
  tm_brace : forall i, K i R_CURLY -> reads X i "}" = true;
  tm_semi : forall i, K i SEMICOLON -> reads X i ";" = true;
  (** a character that is not in the language, before a closing brace *)
  tm_bad : forall i, K i BAD_CHARACTER -> kind_at T (i + 1) <> R_CURLY;
  (** a label without a loop, before a closing brace *)
  tm_label : forall i, K i QUOTE_IDENT -> K (i + 1) COLON -> kind_at T (i + 2) <> R_CURLY;
  (** [post], before a closing brace *)
  tm_post : forall i, K i IDENT -> reads X i "post" = true -> kind_at T (i + 1) <> R_CURLY;
  (** a brace after a quantifier, in the same statement *)
  tm_quant : forall i k, quantifier T X i -> i < k -> K k L_CURLY -> exists x, i < x /\ x < k /\ (K x R_CURLY \/ K x SEMICOLON)
}.
(** the same for items *)
Record tame_items := {
  (** after an enum, inside the braces around it, there are no attributes inside further braces *)
  ti_enum : forall i k m s, K i IDENT -> reads X i "enum" = true -> inside T X s i -> i < k -> matching T k m -> m < s -> forall y, k < y -> y < m -> kind_at T y <> POUND;
  (** there are no type parameters after [spec f] *)
  ti_spec : forall i k, K i SPEC_KW -> i < k -> K k L_ANGLE -> exists x, i < x /\ x < k /\ (K x L_CURLY \/ K x R_CURLY)
}.
End Spec.

Ltac uncover :=
  repeat match goal with
  | H : _ && _ = true |- _ => apply andb_prop in H; destruct H
  | H : kind_eqb (kind_at ?T ?i) ?k = true |- _ => destruct (kind_eqb_reflect (kind_at T i) k) as [?K|]; [clear H|discriminate H]
  end.
Ltac values e p B P H :=
  unfold t_and, t_or, t_not, t_kwi, is_path_start, is_behavior, is_at_quant_kw, is_literal_pat_start, is_assert_ident, on_function_modifiers_start, on_visibility_modifier_start, t_kwi in H;
  rewrite ?(kv_at _ _ e p _ B P), ?(kv_cur _ _ e p _ B P), ?(kv_nth_at _ _ e p _ B P), ?(kv_nth _ _ e p _ B P), ?(kv_kw _ _ e p _ B P), ?(kv_ts _ _ e p _ B P), ?(kv_nth_ts _ _ e p _ B P), ?(kv_raw _ _ e p _ B P) in H;
  cbn [parts spelling joined] in H.
Ltac learn O :=
  let e := fresh "e" in let p := fresh "p" in let B := fresh "B" in let P := fresh "P" in
  destruct O as (e & p & B & P & O); values e p B P O; try clear P; try clear B; try clear p; try clear e; uncover.
(** from a test that failed *)
Ltac unlike O :=
  let e := fresh "e" in let p := fresh "p" in let B := fresh "B" in let P := fresh "P" in
  destruct O as (e & p & B & P & O); values e p B P O; try clear P; try clear B; try clear p; try clear e;
  lazymatch type of O with kind_eqb (kind_at ?T ?i) ?k = false => let N := fresh "N" in assert (N : kind_at T i <> k) by (let E := fresh in intros E; rewrite E in O; discriminate O); clear O | _ => idtac end.
Ltac sok := first [reflexivity|assumption].
(** the place is before the barrier *)
Ltac klt := let I := fresh "I" in intros I; first [apply (inside_lt _ _ _ _ I); let E := fresh "E" in intros E; solve [congruence|match goal with H : _ |- _ => rewrite E in H; discriminate H end] | eapply inside_lt_curly; [exact I|assumption|solve [assumption|congruence]]].
(** the token is not the barrier *)
Ltac kclear := let I := fresh "I" in let E := fresh "E" in intros I _; first
  [left; match goal with H : kind_at _ ?s = _ |- GrammarBase.mem (kind_at _ ?s) _ = _ => rewrite H end; reflexivity
  |left; destruct (inside_kind _ _ _ _ I) as [E|E]; rewrite E; reflexivity
  |right; split; [lia|reflexivity]].
Ltac kret := apply k_ret; cbn; try exact I; try discriminate; auto.
Create HintDb keep.
#[export] Hint Extern 1 (joined _ _ _ = true) => solve [cbn [parts spelling joined]; repeat match goal with H : kind_at _ _ = _ |- _ => rewrite H end; reflexivity] : keep.
#[export] Hint Extern 1 (kind_at _ _ = _) => assumption : keep.
#[export] Hint Extern 1 (kind_at _ _ <> _) => solve [assumption|congruence] : keep.
#[export] Hint Extern 1 (reads _ _ _ = true) => assumption : keep.
#[export] Hint Extern 1 (_ <= _) => lia : keep.
#[export] Hint Extern 1 (keep _ _ _ _ _ (error_and_bump _) _) => apply k_error_and_bump; klt : keep.
#[export] Hint Extern 1 (keep _ _ _ _ _ (error_and_recover _ _) _) => apply k_error_and_recover : keep.
#[export] Hint Extern 1 (keep _ _ _ _ _ (wrap_with_error _ _) _) => apply k_wrap_with_error : keep.
#[export] Hint Extern 1 (keep _ _ _ _ _ (err _) _) => apply k_err : keep.
#[export] Hint Extern 1 (keep _ _ _ _ _ skip _) => apply k_skip : keep.
#[export] Hint Extern 1 (keep _ _ _ _ _ bump_any_ _) => apply k_bump_any; klt : keep.
#[export] Hint Extern 1 (keep _ _ _ _ _ (remap _) _) => apply k_remap; klt : keep.
#[export] Hint Extern 1 (keep _ _ _ _ _ (bump _) _) => apply k_bump; [sok|kclear] : keep.
#[export] Hint Extern 1 (keep _ _ _ _ _ (expect _) _) => apply k_expect; [sok|kclear] : keep.
#[export] Hint Extern 1 (keep _ _ _ _ _ (expect_msg _ _) _) => apply k_expect_msg; [sok|kclear] : keep.
#[export] Hint Extern 1 (keep _ _ _ _ _ wildcard_ident _) => apply k_wildcard_ident : keep.
#[export] Hint Extern 1 (keep _ _ _ _ _ crash _) => apply k_crash : keep.
Ltac katom := solve [eauto 4 with keep nocore].
Ltac kk :=
  cbv beta iota;
  lazymatch goal with
  | |- keep _ _ _ _ ?i (mbind ?m ?k) ?R =>
      lazymatch m with
      | ask _ => kask | at_ _ => kask | nth_at_ _ _ => kask | cur _ => kask | at_ts _ => kask | kwi _ => kask | cur_kw _ => kask | rs_test _ => kask
      | eat_ _ => apply k_bind_eat; [sok|kclear|let J := fresh "J" in intros J; cbn [parts spelling joined n_raw] in *; uncover; kk|intros _; kk]
      | outer_rs => apply (k_bind_read _ _ _ _ i (fun e _ => e_rs e)); intros ? _; kk
      | stmt_kind_ => apply (k_bind_read _ _ _ _ i (fun e _ => e_sk e)); intros ? _; kk
      | pos_ => apply (k_bind_read _ _ _ _ i (fun _ p => p_pos p)); intros ? _; kk
      | assert_ _ => apply k_bind_assert; let O := fresh "O" in intros O; learn O; kk
      | bump _ => eapply k_bind; [katom|let j := fresh "j" in let q := fresh "q" in intros ? j ? ? q; cbv beta in q; destruct q as [-> q]; cbn [n_raw parts spelling joined] in *; uncover; kk]
      | err _ => eapply k_bind; [apply k_err|let j := fresh "j" in let q := fresh "q" in intros ? j ? ? q; cbv beta in q; subst j; kk]
      | skip => eapply k_bind; [apply k_skip|let j := fresh "j" in let q := fresh "q" in intros ? j ? ? q; cbv beta in q; subst j; kk]
      | remap _ => eapply k_bind; [katom|let j := fresh "j" in let q := fresh "q" in intros ? j ? ? q; cbv beta in q; subst j; kk]
      | expect _ => kexpect
      | expect_msg _ _ => kexpect
      | node _ _ => kdeep
      | marked _ => kdeep
      | preceded _ _ => kdeep
      | delimited _ _ _ _ => kdeep
      | iterate_to_EOF _ _ _ => kdeep
      | loop _ _ => kdeep
      | mbind _ _ => kdeep
      | with_ts _ _ => kdeep
      | with_rs _ _ => kdeep
      | with_sk _ _ => kdeep
      | checked _ => kdeep
      | plain _ => kdeep
      | done _ => kdeep
      | some_closing _ => kdeep
      | unary _ _ _ _ => kdeep
      | match _ with _ => _ end => kdeep
      | _ => eapply k_bind; [katom|let a := fresh "a" in let j := fresh "j" in let q := fresh "q" in intros a j ? ? q; cbv beta in q;
               try (match type of q with _ = _ => subst j | any _ _ => clear q | a = false -> _ = _ => destruct a; [clear q|specialize (q eq_refl); subst j] end); kk]
      end
  | |- keep _ _ _ _ _ (ret _) _ => kret
  | |- keep _ _ _ _ _ (let _ := _ in _) _ => cbv zeta; kk
  | |- keep _ _ _ _ _ (plain _) _ => unfold plain; kk
  | |- keep _ _ _ _ _ (done _) _ => unfold done; kk
  | |- keep _ _ _ _ _ (some_closing _) _ => unfold some_closing; kk
  | |- keep _ _ _ _ _ (unary _ _ _ _) _ => unfold unary; kk
  | |- keep _ _ _ _ _ (match ?x with _ => _ end) _ => destruct x; kk
  | |- keep _ _ _ _ _ (with_ts _ _) _ => apply k_ts; kk
  | |- keep _ _ _ _ _ (with_rs _ _) _ => apply k_rs; kk
  | |- keep _ _ _ _ _ (with_sk _ _) _ => apply k_sk; kk
  | |- keep _ _ _ _ _ (node _ _) any => apply k_node_any; kk
  | |- keep _ _ _ _ _ (marked _) any => apply k_marked_any; kk
  | |- keep _ _ _ _ _ (preceded _ _) any => apply k_preceded_any; kk
  | |- keep _ _ _ _ _ (checked _) any => apply k_checked_any; kk
  | |- keep _ _ _ _ _ (delimited _ _ _ _) any => apply k_delimited; [sok|let I := fresh "I" in let E := fresh "E" in intros I; destruct (inside_kind _ _ _ _ I) as [E|E]; rewrite E; reflexivity|intros ? ? ? _; kk]
  | |- keep _ _ _ _ _ (iterate_to_EOF _ _ _) any => apply k_iterate; intros ? ? ? ? ?; kk
  | |- keep _ _ _ _ _ (loop _ _) any => apply k_loop_any; intros ? ? ? ?; kk
  | |- keep _ _ _ _ _ (ask _) any => apply k_ask_any
  | |- keep _ _ _ _ _ (eat_ _) any => apply k_eat; [sok|kclear|intros; exact I|intros; exact I]
  | |- keep _ _ _ _ _ _ any => first [katom | eapply k_any; katom]
  | |- _ => first [katom | eapply k_weak; [katom|cbn; auto]]
  end
with kdeep := eapply (k_bind _ _ _ _ _ _ _ any); [kk|intros ? ? ? ? _; kk]
with kask := apply k_bind_ask; let b := fresh "b" in let O := fresh "O" in intros b O; destruct b; [learn O|try clear O]; kk
with kexpect := eapply k_bind; [katom|let b := fresh "b" in let H := fresh "H" in let j := fresh "j" in intros b j ? ? H; cbv beta in H; destruct b; [destruct H as [-> ?]; cbn [n_raw parts spelling joined] in *; uncover|subst j]; kk].

Section All.
Variables (T : toks) (X : list text).
Hypothesis TM : tame T X.
Notation keep := (keep T X).
Notation inside := (inside T X).
Notation K i k := (kind_at T i = k).

Lemma k_value_address : forall s i, keep true s i value_address any.
Proof. intros; unfold value_address; kk. Qed.
#[local] Hint Resolve k_value_address : keep.
Lemma k_any_address : forall s i, keep true s i any_address any.
Proof. intros; unfold any_address; kk. Qed.
#[local] Hint Resolve k_any_address : keep.
Lemma k_name_or_recover : forall extra s i, keep true s i (name_or_recover extra) any.
Proof. intros; unfold name_or_recover; kk. Qed.
#[local] Hint Resolve k_name_or_recover : keep.
Lemma k_name : forall s i, keep true s i name any.
Proof. intros; unfold name; kk. Qed.
#[local] Hint Resolve k_name : keep.
Lemma k_name_ref_or_recover : forall s i, keep true s i name_ref_or_recover any.
Proof. intros; unfold name_ref_or_recover; kk. Qed.
#[local] Hint Resolve k_name_ref_or_recover : keep.
Lemma k_name_ref : forall s i, K i IDENT -> keep true s i name_ref any.
Proof. intros; unfold name_ref; kk. Qed.
#[local] Hint Resolve k_name_ref : keep.
Lemma k_ability : forall s i, keep true s i ability any.
Proof. intros; unfold ability; kk. Qed.
#[local] Hint Resolve k_ability : keep.
Lemma k_abilities_list : forall s i, keep true s i abilities_list any.
Proof. intros; unfold abilities_list; kk. Qed.
#[local] Hint Resolve k_abilities_list : keep.

(** what is assumed of the recursive calls *)
Record held (R : recs) : Prop := {
  h_path : forall s i mode, keep true s i (r_path R mode) any;
  h_type : forall s i rs, keep true s i (r_type R rs) any;
  h_pattern : forall s i, keep true s i (r_pattern R) any;
  h_expr : forall s i r bp, keep true s i (r_expr R r bp) (fun x j => x = None -> kind_at T i <> R_CURLY -> kind_at T j <> R_CURLY);
  h_stmt : forall s i, K s R_CURLY -> kind_at T i <> R_CURLY -> keep true s i (r_stmt R) any;
  h_attr_item : forall s i, keep true s i (r_attr_item R) any;
  h_use_speck : forall s i b, keep true s i (r_use_speck R b) (fun b _ => b = true)
}.
Section Step.
Variable R : recs.
Hypothesis HR : held R.
Lemma k_path : forall s i mode, keep true s i (path R mode) any. Proof. apply (h_path R HR). Qed.
Lemma k_type_or_recover : forall s i rs, keep true s i (type_or_recover R rs) any. Proof. apply (h_type R HR). Qed.
Lemma k_pattern : forall s i, keep true s i (pattern R) any. Proof. apply (h_pattern R HR). Qed.
Lemma k_expr_bp : forall s i r bp, keep true s i (expr_bp R r bp) (fun x j => x = None -> kind_at T i <> R_CURLY -> kind_at T j <> R_CURLY). Proof. apply (h_expr R HR). Qed.
Lemma k_stmt : forall s i, K s R_CURLY -> kind_at T i <> R_CURLY -> keep true s i (stmt R) any. Proof. apply (h_stmt R HR). Qed.
Lemma k_attr_item : forall s i, keep true s i (attr_item R) any. Proof. apply (h_attr_item R HR). Qed.
Lemma k_use_speck : forall s i b, keep true s i (use_speck R b) (fun b _ => b = true). Proof. apply (h_use_speck R HR). Qed.
#[local] Hint Resolve k_path k_type_or_recover k_pattern k_expr_bp k_stmt k_attr_item k_use_speck : keep.

Lemma k_type_ : forall s i, keep true s i (type_ R) any.
Proof. intros; unfold type_; kk. Qed.
#[local] Hint Resolve k_type_ : keep.
Lemma k_path_type : forall s i, keep true s i (path_type R) any.
Proof. intros; unfold path_type; kk. Qed.
#[local] Hint Resolve k_path_type : keep.
Lemma k_type_annotation : forall s i, keep true s i (type_annotation R) any.
Proof. intros; unfold type_annotation; kk. Qed.
#[local] Hint Resolve k_type_annotation : keep.
Lemma k_type_arg : forall b s i, keep true s i (type_arg R b) any.
Proof. intros; unfold type_arg; kk. Qed.
#[local] Hint Resolve k_type_arg : keep.
Lemma k_opt_type_arg_list_for_type : forall s i, keep true s i (opt_type_arg_list_for_type R) any.
Proof. intros; unfold opt_type_arg_list_for_type; kk. Qed.
#[local] Hint Resolve k_opt_type_arg_list_for_type : keep.
Lemma k_type_args_rest : forall first s i, keep true s i first any -> keep true s i (type_args_rest R first) any.
Proof. intros; unfold type_args_rest; kk. Qed.
#[local] Hint Extern 2 (GrammarKeep.keep _ _ _ _ _ (type_args_rest _ _) _) => apply k_type_args_rest; eapply k_any : keep.
Lemma k_opt_type_arg_list_for_expr : forall b s i, keep true s i (opt_type_arg_list_for_expr R b) any.
Proof. intros b s i. unfold opt_type_arg_list_for_expr. kk. Qed.
#[local] Hint Resolve k_opt_type_arg_list_for_expr : keep.
Lemma k_opt_path_type_arg_list : forall m s i, keep true s i (opt_path_type_arg_list R m) any.
Proof. intros; unfold opt_path_type_arg_list; kk. Qed.
#[local] Hint Resolve k_opt_path_type_arg_list : keep.
Lemma k_path_segment : forall mode b s i, keep true s i (path_segment R mode b) any.
Proof. intros; unfold path_segment; kk. Qed.
#[local] Hint Resolve k_path_segment : keep.
Lemma k_path_loop : forall mode c s i, keep true s i (path_loop R mode c) any.
Proof. intros; unfold path_loop; kk. Qed.
#[local] Hint Resolve k_path_loop : keep.
Lemma k_path_body : forall mode s i, keep true s i (path_body R mode) any.
Proof. intros; unfold path_body; kk. Qed.
#[local] Hint Resolve k_path_body : keep.
Lemma k_colon_ability_bound_list : forall s i, keep true s i colon_ability_bound_list any.
Proof. intros; unfold colon_ability_bound_list; kk. Qed.
#[local] Hint Resolve k_colon_ability_bound_list : keep.
Lemma k_ability_bound_list : forall s i, keep true s i ability_bound_list any.
Proof. intros; unfold ability_bound_list; kk. Qed.
#[local] Hint Resolve k_ability_bound_list : keep.
Lemma k_ref_type : forall s i, keep true s i (ref_type R) any.
Proof. intros; unfold ref_type; kk. Qed.
#[local] Hint Resolve k_ref_type : keep.
Lemma k_lambda_type : forall s i, keep true s i (lambda_type R) any.
Proof. intros; unfold lambda_type; kk. Qed.
#[local] Hint Resolve k_lambda_type : keep.
Lemma k_paren_or_tuple_or_unit_type : forall s i, keep true s i (paren_or_tuple_or_unit_type R) any.
Proof. intros; unfold paren_or_tuple_or_unit_type; kk. Qed.
#[local] Hint Resolve k_paren_or_tuple_or_unit_type : keep.
Lemma k_type_body : forall extra s i, keep true s i (type_body R extra) any.
Proof. intros; unfold type_body; kk. Qed.
#[local] Hint Resolve k_type_body : keep.
Lemma k_type_param : forall s i, keep true s i type_param any.
Proof. intros; unfold type_param; kk. Qed.
#[local] Hint Resolve k_type_param : keep.
Lemma k_opt_type_param_list : forall s i, keep true s i opt_type_param_list any.
Proof. intros; unfold opt_type_param_list; kk. Qed.
#[local] Hint Resolve k_opt_type_param_list : keep.
Lemma k_attr_item_list : forall l r s i, okk l = true -> okk r = true -> GrammarBase.mem R_CURLY (parts l ++ parts r) = false -> GrammarBase.mem SEMICOLON (parts l ++ parts r) = false -> keep true s i (attr_item_list R l r) any.
Proof.
  intros l r s i OL OR M1 M2. rewrite mem_app in M1, M2. apply orb_false_iff in M1, M2. destruct M1 as [M1 M3], M2 as [M2 M4]. unfold attr_item_list. eapply k_bind; [apply k_bump; [exact OL|]|].
  - intros I _. left. destruct (inside_kind _ _ _ _ I) as [E|E]; rewrite E; assumption.
  - intros ? j ? ? _. eapply (k_bind _ _ _ _ _ _ _ any); [kk|]. intros ? j2 ? ? _. eapply k_bind; [apply k_expect; [exact OR|]|intros; kk]. intros I _. left. destruct (inside_kind _ _ _ _ I) as [E|E]; rewrite E; assumption.
Qed.
#[local] Hint Extern 3 (GrammarKeep.keep _ _ _ _ _ (attr_item_list _ _ _) _) => apply k_attr_item_list; reflexivity : keep.
Lemma k_attr : forall s i, keep true s i (attr R) any.
Proof. intros; unfold attr; kk. Qed.
#[local] Hint Resolve k_attr : keep.
Lemma k_attrs : forall s i, keep true s i (attrs R) (fun a j => a = None -> j = i).
Proof.
  intros s i. unfold attrs. apply (k_loop _ _ _ (fun last j => last = None -> j = i)); [|auto]. intros last j L1 L2 HL. kk.
Qed.
#[local] Hint Resolve k_attrs : keep.
Lemma k_expr : forall s i, keep true s i (expr R) any.
Proof. intros; unfold expr; kk. Qed.
#[local] Hint Resolve k_expr : keep.
Lemma k_expect_expr : forall s i, keep true s i (expect_expr R) any.
Proof. intros; unfold expect_expr; kk. Qed.
#[local] Hint Resolve k_expect_expr : keep.
Lemma k_opt_initializer_expr : forall s i, keep true s i (opt_initializer_expr R) any.
Proof. intros; unfold opt_initializer_expr; kk. Qed.
#[local] Hint Resolve k_opt_initializer_expr : keep.
Lemma k_initializer_expr : forall s i, keep true s i (initializer_expr R) any.
Proof. intros; unfold initializer_expr; kk. Qed.
#[local] Hint Resolve k_initializer_expr : keep.
Lemma k_attr_item_body : forall s i, keep true s i (attr_item_body R) any.
Proof. intros; unfold attr_item_body; kk. Qed.
#[local] Hint Resolve k_attr_item_body : keep.
Lemma k_value_arg_list : forall s i, keep true s i (value_arg_list R) any.
Proof. intros; unfold value_arg_list; kk. Qed.
#[local] Hint Resolve k_value_arg_list : keep.
Lemma k_literal : forall s i, keep true s i literal (fun c j => c = None -> kind_at T i <> R_CURLY -> kind_at T j <> R_CURLY).
Proof.
  intros s i. unfold literal. eapply (k_bind _ _ _ _ _ _ _ (fun (x : option cm * bool) j => if snd x then j = i /\ K i BAD_CHARACTER else fst x = None -> j = i)).
  - eapply k_weak; [apply (k_marked _ _ _ _ _ _ (fun ok (b : bool) j => if b then j = i /\ K i BAD_CHARACTER else ok = false -> j = i))|intros [[c|] b] j _ _; cbn; destruct b; auto; discriminate].
    kk.
  - intros [c bad] j L1 L2 q. cbn [fst snd] in q. destruct bad; [destruct q as [-> q]|].
    + eapply k_bind; [katom|]. intros ? j ? ? q2. cbv beta in q2. subst j. apply k_ret. intros _ _. apply (tm_bad _ _ TM), q.
    + apply k_ret. intros E N. now rewrite (q E).
Qed.
#[local] Hint Resolve k_literal : keep.
Lemma k_literal_pat : forall s i, keep true s i literal_pat any.
Proof. intros; unfold literal_pat; kk. Qed.
#[local] Hint Resolve k_literal_pat : keep.
Lemma k_wildcard_pat : forall s i, keep true s i wildcard_pat any.
Proof. intros; unfold wildcard_pat; kk. Qed.
#[local] Hint Resolve k_wildcard_pat : keep.
Lemma k_ident_pat : forall s i, keep true s i ident_pat any.
Proof. intros; unfold ident_pat; kk. Qed.
#[local] Hint Resolve k_ident_pat : keep.
Lemma k_ident_pat_or_recover : forall s i, keep true s i ident_pat_or_recover any.
Proof. intros; unfold ident_pat_or_recover; kk. Qed.
#[local] Hint Resolve k_ident_pat_or_recover : keep.
Lemma k_tuple_pat_fields : forall s i, keep true s i (tuple_pat_fields R) any.
Proof. intros; unfold tuple_pat_fields; kk. Qed.
#[local] Hint Resolve k_tuple_pat_fields : keep.
Lemma k_struct_pat_field : forall s i, keep true s i (struct_pat_field R) any.
Proof. intros; unfold struct_pat_field; kk. Qed.
#[local] Hint Resolve k_struct_pat_field : keep.
Lemma k_struct_pat_field_list : forall s i, keep true s i (struct_pat_field_list R) any.
Proof.
  intros s i. apply k_inside. intros I. unfold struct_pat_field_list. apply k_bind_assert. intros O. learn O. eapply (k_bind _ _ _ _ _ _ _ any); [apply k_node_any|intros; kk]. eapply k_bind; [katom|]. intros ? j ? ? q. cbv beta in q. destruct q as [-> _]. cbn [n_raw].
  apply (k_braced _ _ _ false); auto; [discriminate| |].
  - intros m KM _. apply k_ts_own; [rewrite KM; reflexivity|]. kk.
  - intros ? m j L1 L2 L3 KM. eapply k_any. apply k_expect; [reflexivity|kclear].
Qed.
#[local] Hint Resolve k_struct_pat_field_list : keep.
Lemma k_path_pat : forall s i, keep true s i (path_pat R) any.
Proof. intros; unfold path_pat; kk. Qed.
#[local] Hint Resolve k_path_pat : keep.
Lemma k_tuple_or_unit_or_paren_pat : forall s i, keep true s i (tuple_or_unit_or_paren_pat R) any.
Proof. intros; unfold tuple_or_unit_or_paren_pat; kk. Qed.
#[local] Hint Resolve k_tuple_or_unit_or_paren_pat : keep.
Lemma k_pattern_body : forall s i, keep true s i (pattern_body R) any.
Proof. intros; unfold pattern_body; kk. Qed.
#[local] Hint Resolve k_pattern_body : keep.
Lemma k_param : forall s i, keep true s i (param R) any.
Proof. intros; unfold param; kk. Qed.
#[local] Hint Resolve k_param : keep.
Lemma k_fun_param_list : forall s i, keep true s i (fun_param_list R) any.
Proof. intros; unfold fun_param_list; kk. Qed.
#[local] Hint Resolve k_fun_param_list : keep.
Lemma k_lambda_param : forall s i, keep true s i (lambda_param R) any.
Proof. intros; unfold lambda_param; kk. Qed.
#[local] Hint Resolve k_lambda_param : keep.
Lemma k_lambda_param_list : forall s i, keep true s i (lambda_param_list R) (fun b j => b = false -> kind_at T j <> R_CURLY).
Proof.
  intros s i. unfold lambda_param_list. eapply k_bind; [apply (k_marked _ _ _ _ _ _ (fun _ b j => b = false -> kind_at T j <> R_CURLY))|intros [c b] j _ _ q; apply k_ret; exact q].
  eapply k_bind; [apply k_bump; [reflexivity|kclear]|]. intros ? j ? ? q. cbv beta in q. destruct q as [-> q]. cbn [n_raw parts spelling joined] in *. uncover. apply k_bind_ask. intros b O. destruct b; [learn O|clear O].
  - apply k_ret. cbn. intros _. congruence.
  - eapply (k_bind _ _ _ _ _ _ _ any); [kk|]. intros ? j ? ? _. apply k_bind_eat; [reflexivity|kclear| |]; intros _; apply k_ret; cbn; [discriminate|intros _; congruence].
Qed.
#[local] Hint Resolve k_lambda_param_list : keep.
Lemma k_stmt_list : forall f s i, K s R_CURLY -> keep f s i (stmt_list R) any.
Proof.
  intros f s i KS. unfold stmt_list. apply k_iterate_own; [rewrite KS; reflexivity|]. intros u j L1 L2 N. assert (NR : kind_at T j <> R_CURLY) by (intros E; rewrite E in N; discriminate). kk.
Qed.
Lemma k_block_expr : forall f s i, keep f s i (block_expr R) any.
Proof.
  intros f s i. apply k_inside. intros I. unfold block_expr. apply k_bind_assert. intros O. learn O. apply k_reset. apply k_node_any. eapply k_bind; [apply k_bump; [reflexivity|kclear]|]. intros ? j ? ? q. cbv beta in q. destruct q as [-> _]. cbn [n_raw].
  apply (k_braced _ _ _ false); auto; [discriminate| |].
  - intros m KM _. now apply k_stmt_list.
  - intros ? m j L1 L2 L3 KM. eapply k_any. apply k_expect; [reflexivity|kclear].
Qed.
#[local] Hint Resolve k_block_expr : keep.
Lemma k_unexpected_block : forall w f s i, keep f s i (unexpected_block R w) any.
Proof.
  intros w f s i. apply k_inside. intros I. unfold unexpected_block. apply k_bind_assert. intros O. learn O. eapply (k_bind _ _ _ _ _ _ _ any); [apply k_node_any|intros; eapply k_any, k_skip].
  eapply k_bind; [apply k_err|]. intros ? j ? ? q. cbv beta in q. subst j. eapply k_bind; [apply k_bump; [reflexivity|kclear]|]. intros ? j ? ? q. cbv beta in q. destruct q as [-> _]. cbn [n_raw].
  apply (k_braced _ _ _ false); auto; [discriminate| |].
  - intros m KM _. now apply k_stmt_list.
  - intros ? m j L1 L2 L3 KM. apply k_eat; [reflexivity|kclear|intros; exact Logic.I|intros; exact Logic.I].
Qed.
#[local] Hint Resolve k_unexpected_block : keep.
Lemma k_inline_expr : forall s i, keep true s i (inline_expr R) any.
Proof. intros s i. unfold inline_expr. apply k_bind_assert. intros _. kk. Qed.
#[local] Hint Resolve k_inline_expr : keep.
Lemma k_block_or_inline_expr : forall s i, keep true s i (block_or_inline_expr R) any.
Proof. intros s i. unfold block_or_inline_expr. kk. Qed.
#[local] Hint Resolve k_block_or_inline_expr : keep.
Lemma k_spec_block_expr : forall s i, keep true s i (spec_block_expr R) any.
Proof. intros; unfold spec_block_expr; kk. Qed.
#[local] Hint Resolve k_spec_block_expr : keep.
Lemma k_opt_spec_block_expr : forall s i, keep true s i (opt_spec_block_expr R) any.
Proof. intros; unfold opt_spec_block_expr; kk. Qed.
#[local] Hint Resolve k_opt_spec_block_expr : keep.
Lemma k_quant_binding : forall s i, keep true s i (quant_binding R) any.
Proof. intros; unfold quant_binding; kk. Qed.
#[local] Hint Resolve k_quant_binding : keep.
Lemma k_quant_binding_list : forall rs s i, keep true s i (quant_binding_list R rs) any.
Proof. intros; unfold quant_binding_list; kk. Qed.
#[local] Hint Resolve k_quant_binding_list : keep.
Lemma k_opt_where_expr : forall s i, keep true s i (opt_where_expr R) any.
Proof. intros; unfold opt_where_expr; kk. Qed.
#[local] Hint Resolve k_opt_where_expr : keep.
Lemma k_weight : forall s i, keep true s i (weight R) any.
Proof. intros; unfold weight; kk. Qed.
#[local] Hint Resolve k_weight : keep.
(** between the quantifier and the end of the statement there is no brace *)
Lemma k_quant_binding_list_semi : forall rs f s i, K s SEMICOLON -> keep f s i (quant_binding_list R rs) any.
Proof.
  intros rs f s i KS. unfold quant_binding_list. eapply (k_bind _ _ _ _ _ _ _ any); [apply k_node_any|intros; eapply k_any, k_skip]. unfold with_rs. eapply (k_local _ _ f true).
  - intros e. split; [reflexivity|]. intros _ _. rewrite KS. cbn [set_rs e_rs rs_union rs_kinds rs_of]. rewrite !mem_app. cbn. now rewrite orb_true_r.
  - kk.
Qed.
Lemma first_end : forall i k, i < k -> kind_at T k = L_CURLY -> (forall k, i < k -> K k L_CURLY -> exists x, i < x /\ x < k /\ (K x R_CURLY \/ K x SEMICOLON)) ->
  exists x, i < x /\ x < k /\ (K x R_CURLY \/ K x SEMICOLON) /\ forall y, i < y -> y < x -> kind_at T y <> L_CURLY /\ kind_at T y <> R_CURLY.
Proof.
  intros i k L KL H. destruct (H k L KL) as (x & L1 & L2 & KX). revert L1 L2 KX. induction x as [x IH] using lt_wf_ind. intros L1 L2 KX.
  assert (D : (exists y, i < y /\ y < x /\ (K y R_CURLY \/ K y SEMICOLON)) \/ (forall y, i < y -> y < x -> ~ (K y R_CURLY \/ K y SEMICOLON))).
  { clear IH L1 L2 KX. induction x as [|x IHx]; [right; lia|]. destruct IHx as [(y & Q1 & Q2 & Q3)|N]; [left; exists y; repeat split; auto; lia|].
    destruct (le_lt_dec x i) as [|Lx]; [right; intros; lia|]. destruct (kind_eqb_reflect (kind_at T x) R_CURLY) as [E|E]; [left; exists x; auto|]. destruct (kind_eqb_reflect (kind_at T x) SEMICOLON) as [E2|E2]; [left; exists x; auto|].
    right. intros y Q1 Q2. destruct (Nat.eq_dec y x) as [->|]; [tauto|]. apply N; lia. }
  destruct D as [(y & Q1 & Q2 & Q3)|N]; [apply (IH y); auto; lia|]. exists x. repeat split; auto; intros E.
  - destruct (H y ltac:(assumption) E) as (z & Z1 & Z2 & Z3). apply (N z); auto; lia.
  - apply (N y); auto.
Qed.
Lemma balanced_plain : forall i j, i <= j -> (forall y, i <= y -> y < j -> kind_at T y <> L_CURLY /\ kind_at T y <> R_CURLY) -> balanced T i j.
Proof.
  intros i j L. remember (j - i) as n eqn:E. revert i L E. induction n as [|n IH]; intros i L E H; [replace j with i by lia; constructor|]. apply bal_tok; [apply H; lia|apply H; lia|]. apply IH; [lia|lia|]. intros y L1 L2. apply H; lia.
Qed.
(** so the parser does not see one *)
Lemma k_quant_bindings : forall rs s i, quantifier T X i -> inside s i -> keep true s (i + 1) (quant_binding_list R rs) (fun _ j => kind_at T j <> L_CURLY).
Proof.
  intros rs s i Q I. assert (C : K s R_CURLY \/ K s SEMICOLON) by (eapply inside_kind; eauto). destruct C as [KS|KS].
  - eapply k_weak; [apply (k_all _ _ true s (i + 1) _ any (fun x => K x R_CURLY \/ K x SEMICOLON))|]; [katom| |].
    + intros x [KX|KX] IX; [exists true; split; [katom|intros _; split; [auto|congruence]]|exists false; split; [now apply k_quant_binding_list_semi|discriminate]].
    + intros ? j L1 L2 [_ H] KJ. destruct (first_end i j ltac:(lia) KJ) as (x & X1 & X2 & X3 & X4); [intros k; now apply (tm_quant _ _ TM)|].
      assert (IX : inside x (i + 1)).
      { split; [lia|]. split; [exists (i + 1); split; auto; apply balanced_plain; [lia|]; intros y Y1 Y2; apply X4; lia|]. destruct X3 as [X3|X3]; [auto|right]. split; auto. intros q k Y0 Y1 Y2 _. apply X4; lia. }
      specialize (H x X3 IX). lia.
  - eapply k_weak; [katom|]. intros ? j L1 L2 _ KJ. destruct I as (_ & _ & [E|[_ H]]); [congruence|]. assert (j <> s) by congruence. apply (H i j); auto; lia.
Qed.
Lemma k_quant_expr : forall kw k s i, quantifier T X i -> keep true s i (quant_expr R kw k) any.
Proof.
  intros kw k s i Q. apply k_inside. intros I. assert (KI : K i IDENT) by apply Q. unfold quant_expr. apply k_node_any. eapply k_bind; [katom|]. intros ? j ? ? q. cbv beta in q. subst j. eapply k_bind; [now apply k_quant_bindings|]. intros ? j ? ? N. cbv beta in N.
  apply (k_bind _ _ _ _ _ _ _ any); [|intros; kk]. apply k_bind_ask. intros b O. destruct b; [learn O; contradiction|kk].
Qed.
Lemma k_choose_expr : forall s i, K i IDENT -> keep true s i (choose_expr R) any.
Proof. intros; unfold choose_expr; kk. Qed.
#[local] Hint Resolve k_choose_expr : keep.
Lemma k_struct_lit_field_list : forall s i, keep true s i (struct_lit_field_list R) any.
Proof.
  intros s i. apply k_inside. intros I. unfold struct_lit_field_list. apply k_bind_assert. intros O. learn O. eapply (k_bind _ _ _ _ _ _ _ any); [apply k_node_any|intros; kk]. eapply k_bind; [katom|]. intros ? j ? ? q. cbv beta in q. destruct q as [-> _]. cbn [n_raw].
  apply (k_braced _ _ _ false); auto; [discriminate| |].
  - intros m KM _. apply k_iterate_own; [rewrite KM; reflexivity|]. intros u j L1 L2 N. assert (NR : kind_at T j <> R_CURLY) by (intros E; rewrite E in N; discriminate). kk.
  - intros ? m j L1 L2 L3 KM. eapply k_any. apply k_expect; [reflexivity|kclear].
Qed.
#[local] Hint Resolve k_struct_lit_field_list : keep.
Lemma k_the_cm : forall s i x, keep true s i (the_cm x) any. Proof. intros s i [c|]; [now apply k_ret|apply k_crash]. Qed.
#[local] Hint Resolve k_the_cm : keep.
Lemma k_path_expr : forall s i, keep true s i (path_expr R) any.
Proof. intros; unfold path_expr; kk. Qed.
#[local] Hint Resolve k_path_expr : keep.
Lemma k_vector_lit_expr : forall s i, keep true s i (vector_lit_expr R) any.
Proof. intros; unfold vector_lit_expr; kk. Qed.
#[local] Hint Resolve k_vector_lit_expr : keep.
Lemma k_top_level_expr_in_stmt : forall s i, keep true s i (top_level_expr_in_stmt R) (fun x j => x = None -> kind_at T i <> R_CURLY -> kind_at T j <> R_CURLY).
Proof. intros. apply k_expr_bp. Qed.
#[local] Hint Resolve k_top_level_expr_in_stmt : keep.
Lemma k_match_arm : forall s i, keep true s i (match_arm R) any.
Proof. intros; unfold match_arm; kk. Qed.
#[local] Hint Resolve k_match_arm : keep.
Lemma k_match_arm_list : forall s i, keep true s i (match_arm_list R) any.
Proof.
  intros s i. apply k_inside. intros I. unfold match_arm_list. apply k_bind_assert. intros O. learn O. eapply (k_bind _ _ _ _ _ _ _ any); [apply k_node_any|intros; kk]. apply k_bind_eat; [reflexivity|kclear| |].
  - intros _. cbn [n_raw]. apply (k_braced _ _ _ false); auto; [discriminate| |].
    + intros m KM _. apply k_reset. apply k_iterate_own; [rewrite KM; reflexivity|]. intros u j L1 L2 N. kk.
    + intros ? m j L1 L2 L3 KM. eapply k_any. apply k_expect; [reflexivity|kclear].
  - intros J. cbn [parts spelling joined] in J. destruct (kind_eqb_reflect (kind_at T i) L_CURLY); [discriminate|contradiction].
Qed.
#[local] Hint Resolve k_match_arm_list : keep.
Lemma k_match_expr : forall s i, reads X i "match" = true -> keep true s i (match_expr R) (fun c j => c = None -> j = i).
Proof.
  intros s i H. assert (N1 : kind_at T i <> R_CURLY) by (intros E; apply (tm_brace _ _ TM) in E; exact (reads_two _ _ _ _ H E ltac:(discriminate))). assert (N2 : kind_at T i <> SEMICOLON) by (intros E; apply (tm_semi _ _ TM) in E; exact (reads_two _ _ _ _ H E ltac:(discriminate))).
  unfold match_expr. eapply k_bind; [apply (k_marked _ _ _ _ _ _ (fun ok _ j => ok = false -> j = i))|intros [[c|] a] j _ _ q; apply k_ret; [discriminate|intros _; now apply q]]. kk.
Qed.
#[local] Hint Resolve k_match_expr : keep.
Lemma k_assert_macro_expr : forall s i, keep true s i (assert_macro_expr R) any.
Proof. intros; unfold assert_macro_expr; kk. Qed.
#[local] Hint Resolve k_assert_macro_expr : keep.
Lemma k_paren_or_tuple_or_annotated_expr : forall s i, keep true s i (paren_or_tuple_or_annotated_expr R) any.
Proof. intros; unfold paren_or_tuple_or_annotated_expr; kk. Qed.
#[local] Hint Resolve k_paren_or_tuple_or_annotated_expr : keep.
Lemma k_condition : forall s i, keep true s i (condition R) any.
Proof. intros; unfold condition; kk. Qed.
#[local] Hint Resolve k_condition : keep.
Lemma k_if_expr : forall s i, keep true s i (if_expr R) any.
Proof. intros; unfold if_expr; kk. Qed.
#[local] Hint Resolve k_if_expr : keep.
Lemma k_label_decl : forall s i, keep true s i label_decl (fun _ j => j = i + 2 /\ K i QUOTE_IDENT /\ K (i + 1) COLON).
Proof.
  intros s i. unfold label_decl. apply k_bind_assert. intros O. learn O. eapply (k_bind _ _ _ _ _ _ _ (fun _ j => j = i + 2)); [eapply (k_node _ _ _ _ _ _ _ (fun _ j => j = i + 2) (fun j => j = i + 2)); auto|intros ? j _ _ ->; apply k_ret; auto].
  eapply k_bind; [katom|]. intros ? j ? ? [-> _]. cbn [n_raw]. eapply k_weak; [katom|]. intros ? j _ _ [-> _]. cbn [n_raw]. lia.
Qed.
#[local] Hint Resolve k_label_decl : keep.
Lemma k_loop_rest : forall s i, keep true s i (loop_rest R) any.
Proof. intros; unfold loop_rest; kk. Qed.
#[local] Hint Resolve k_loop_rest : keep.
Lemma k_for_condition : forall s i, keep true s i (for_condition R) any.
Proof. intros; unfold for_condition; kk. Qed.
#[local] Hint Resolve k_for_condition : keep.
Lemma k_for_rest : forall s i, keep true s i (for_rest R) any.
Proof. intros; unfold for_rest; kk. Qed.
#[local] Hint Resolve k_for_rest : keep.
Lemma k_while_rest : forall s i, keep true s i (while_rest R) any.
Proof. intros; unfold while_rest; kk. Qed.
#[local] Hint Resolve k_while_rest : keep.
Lemma k_with_marker : forall rest s i, keep true s i rest any -> keep true s i (with_marker rest) any.
Proof. intros rest s i H. unfold with_marker. kk. Qed.
#[local] Hint Extern 2 (GrammarKeep.keep _ _ _ _ _ (with_marker _) _) => apply k_with_marker; eapply k_any : keep.
Lemma k_opt_expr : forall s i, keep true s i (opt_expr R) any.
Proof. intros; unfold opt_expr; kk. Qed.
#[local] Hint Resolve k_opt_expr : keep.
Lemma k_opt_label : forall s i, keep true s i opt_label any.
Proof. intros; unfold opt_label; kk. Qed.
#[local] Hint Resolve k_opt_label : keep.
Lemma k_return_expr : forall s i, keep true s i (return_expr R) any.
Proof. intros; unfold return_expr; kk. Qed.
#[local] Hint Resolve k_return_expr : keep.
Lemma k_abort_expr : forall s i, keep true s i (abort_expr R) any.
Proof. intros; unfold abort_expr; kk. Qed.
#[local] Hint Resolve k_abort_expr : keep.
Lemma k_continue_expr : forall s i, keep true s i continue_expr any.
Proof. intros; unfold continue_expr; kk. Qed.
#[local] Hint Resolve k_continue_expr : keep.
Lemma k_break_expr : forall s i, keep true s i (break_expr R) any.
Proof. intros; unfold break_expr; kk. Qed.
#[local] Hint Resolve k_break_expr : keep.
Lemma k_labelled : forall s i, keep true s i (labelled R) (fun x j => x = None -> kind_at T j <> R_CURLY).
Proof.
  intros s i. unfold labelled. eapply k_bind; [apply (k_marked _ _ _ _ _ _ (fun _ (ok : bool) j => ok = false -> kind_at T j <> R_CURLY))|].
  - eapply k_bind; [katom|]. intros ? j ? ? (-> & KQ & KC). kk; try (destruct (kept _); discriminate). intros _. now apply (tm_label _ _ TM).
  - intros [c ok] j _ _ q. cbn [fst snd] in q. destruct ok; [destruct c; [now apply k_ret|apply k_crash]|]. apply k_ret. intros _. now apply q.
Qed.
#[local] Hint Resolve k_labelled : keep.
Lemma k_atom_rest : forall s i, keep true s i (atom_rest R) (fun x j => x = None -> kind_at T i <> R_CURLY -> kind_at T j <> R_CURLY).
Proof. intros s i. unfold atom_rest. kk. Qed.
Lemma k_atom_expr : forall s i, keep true s i (atom_expr R) (fun x j => x = None -> kind_at T i <> R_CURLY -> kind_at T j <> R_CURLY).
Proof.
  intros s i. unfold atom_expr. eapply k_bind; [katom|]. intros l j L1 L2 q. cbv beta in q. destruct l; [kret|]. specialize (q eq_refl).
  assert (AR : keep true s j (atom_rest R) (fun x k => x = None -> kind_at T i <> R_CURLY -> kind_at T k <> R_CURLY)) by (eapply k_weak; [apply k_atom_rest|]; cbv beta; auto).
  apply k_bind_ask. intros b O. destruct b; [learn O; kk|]. clear O. apply k_bind_ask. intros b O. destruct b; [learn O|exact AR].
  eapply k_bind; [katom|]. intros c k L3 L4 q2. cbv beta in q2. destruct c; [kret|]. now rewrite (q2 eq_refl).
Qed.
#[local] Hint Resolve k_atom_expr : keep.
Lemma k_call_expr : forall c s i, keep true s i (call_expr R c) any.
Proof. intros; unfold call_expr; kk. Qed.
#[local] Hint Resolve k_call_expr : keep.
Lemma k_index_expr : forall c s i, keep true s i (index_expr R c) any.
Proof. intros; unfold index_expr; kk. Qed.
#[local] Hint Resolve k_index_expr : keep.
Lemma k_postfix_dot_expr : forall c s i, keep true s i (postfix_dot_expr R c) any.
Proof. intros; unfold postfix_dot_expr; kk. Qed.
#[local] Hint Resolve k_postfix_dot_expr : keep.
Lemma k_postfix_expr : forall x s i, keep true s i (postfix_expr R x) any.
Proof. intros x s i. unfold postfix_expr. apply k_loop_any. clear x. intros [[c bl] allow] j _ _. kk. Qed.
#[local] Hint Resolve k_postfix_expr : keep.
Lemma k_is_expr : forall c s i, K i IDENT -> keep true s i (is_expr R c) any.
Proof. intros; unfold is_expr; kk. Qed.
#[local] Hint Resolve k_is_expr : keep.
Lemma k_cast_expr : forall c s i, keep true s i (cast_expr R c) any.
Proof. intros; unfold cast_expr; kk. Qed.
#[local] Hint Resolve k_cast_expr : keep.
Lemma k_behavior_predicate : forall s i, keep true s i (behavior_predicate R) any.
Proof. intros; unfold behavior_predicate; kk. Qed.
#[local] Hint Resolve k_behavior_predicate : keep.
Lemma k_lhs : forall r s i, keep true s i (lhs R r) (fun x j => x = None -> kind_at T i <> R_CURLY -> kind_at T j <> R_CURLY).
Proof.
  intros r s i. unfold lhs. apply k_bind_ask. intros b O. destruct b; [learn O|].
  { eapply k_bind; [apply (k_marked _ _ _ _ _ _ (fun ok _ j => ok = false -> kind_at T j <> R_CURLY))|intros [[c|] a] j _ _ q; apply k_ret; [discriminate|intros _ _; now apply q]].
    eapply k_bind; [katom|]. intros [|] j L1 L2 q; [kk|apply k_ret; cbn; exact q]. }
  clear O. apply k_bind_ask. intros b O. destruct b; [learn O; kk|]. clear O. apply k_bind_ask. intros b O. destruct b.
  { assert (H : K i IDENT /\ (K (i + 1) COLON \/ K (i + 1) IDENT)).
    { learn O. split; auto. apply orb_prop in H1. destruct H1 as [H1|H1]; uncover; auto. }
    clear O. destruct H as [KI KN]. apply k_bind_ask. intros b O. destruct b; [learn O|].
    { unfold plain. eapply (k_bind _ _ _ _ _ _ _ any); [apply k_quant_expr; split; auto|intros; kk]. }
    clear O. apply k_bind_ask. intros b O. destruct b; [learn O|].
    { unfold plain. eapply (k_bind _ _ _ _ _ _ _ any); [apply k_quant_expr; split; auto|intros; kk]. }
    clear O. kk. }
  clear O. kk.
Qed.
#[local] Hint Resolve k_lhs : keep.
Lemma op_clear : forall p k, GrammarBase.mem k (parts (snd (op_of p))) = true -> k <> R_CURLY /\ k <> SEMICOLON.
Proof.
  intros p k H. split; intros ->; unfold op_of in H; destruct (current p); cbn [snd] in H; repeat match goal with H : context [if ?b then _ else _] |- _ => destruct b; cbn [snd] in H end; discriminate.
Qed.
Lemma k_expr_loop : forall r bp c s i, keep true s i (expr_loop R r bp c) any.
Proof.
  intros r bp c s i. unfold expr_loop. apply k_loop_any. clear c. intros c k _ _. clear i. rename k into i. apply k_bind_ask. intros is_range _.
  apply (k_bind_read _ _ _ _ i (fun e p => if t_cur IDENT e p && t_kw "is" e p then (2, IS_KW) else op_of p)). intros [op_bp op] HO. destruct (Nat.ltb_spec op_bp bp) as [|LB]; [kk|].
  apply k_bind_ask. intros b O. destruct b; [learn O; kk|]. clear O. apply k_bind_ask. intros b O. destruct b; [learn O; kk|].
  assert (J : okk op = true /\ forall k, GrammarBase.mem k (parts op) = true -> k <> R_CURLY /\ k <> SEMICOLON).
  { destruct O as (e1 & p1 & B1 & P1 & O). values e1 p1 B1 P1 O. destruct HO as (e & p & B & P & HO). rewrite (kv_cur _ _ e p _ B P), (kv_kw _ _ e p _ B P), O in HO. pose proof (op_okk p) as OK. pose proof (op_clear p) as OC. rewrite HO in OK, OC. auto. }
  destruct J as [OK OC]. eapply (k_bind _ _ _ _ _ _ _ any); [apply k_preceded_any|intros [c' stop] j _ _ _; kk]. eapply k_bind; [apply k_bump; [exact OK|]|intros ? j _ _ _; kk].
  intros I _. left. destruct (GrammarBase.mem (kind_at T s) (parts op)) eqn:E; auto. apply OC in E. destruct E. destruct (inside_kind _ _ _ _ I); contradiction.
Qed.
#[local] Hint Resolve k_expr_loop : keep.
Lemma k_expr_bp_body : forall r bp s i, keep true s i (expr_bp_body R r bp) (fun x j => x = None -> kind_at T i <> R_CURLY -> kind_at T j <> R_CURLY).
Proof.
  intros r bp s i. unfold expr_bp_body. eapply k_bind; [apply (k_marked _ _ _ _ _ _ (fun ok _ j => ok = false -> kind_at T i <> R_CURLY -> kind_at T j <> R_CURLY))|].
  - eapply k_bind; [katom|]. intros [[c bl]|] j L1 L2 q; apply k_ret; cbn; [discriminate|intros _; now apply q].
  - intros [c bl] j L1 L2 q. cbn [fst snd] in q. destruct c; [|apply k_ret; intros _; now apply q]. apply (k_bind_read _ _ _ _ j (fun e p => if t_cur IDENT e p && t_kw "is" e p then (2, IS_KW) else op_of p)). intros [op_bp op] _. kk.
Qed.
Lemma k_opt_predicate_property_list : forall s i, keep true s i opt_predicate_property_list any.
Proof. intros; unfold opt_predicate_property_list; kk. Qed.
#[local] Hint Resolve k_opt_predicate_property_list : keep.
Lemma k_predicate_rest : forall kw s i, K s R_CURLY -> K i IDENT -> keep true s i (predicate_rest R kw) any.
Proof. intros; unfold predicate_rest; kk. Qed.
#[local] Hint Resolve k_predicate_rest : keep.
Lemma k_condition_predicate : forall s i, K s R_CURLY -> keep true s i (condition_predicate R) (fun b j => b = false -> j = i).
Proof. intros; unfold condition_predicate; kk. Qed.
#[local] Hint Resolve k_condition_predicate : keep.
Lemma k_aborts_if_predicate : forall s i, K s R_CURLY -> keep true s i (aborts_if_predicate R) (fun b j => b = false -> j = i).
Proof. intros; unfold aborts_if_predicate; kk. Qed.
#[local] Hint Resolve k_aborts_if_predicate : keep.
Lemma k_opt_emits_condition : forall s i, keep true s i (opt_emits_condition R) any.
Proof. intros; unfold opt_emits_condition; kk. Qed.
#[local] Hint Resolve k_opt_emits_condition : keep.
Lemma k_emits_predicate : forall s i, K s R_CURLY -> keep true s i (emits_predicate R) (fun b j => b = false -> j = i).
Proof. intros; unfold emits_predicate; kk. Qed.
#[local] Hint Resolve k_emits_predicate : keep.
Lemma k_invariant_predicate : forall s i, K s R_CURLY -> keep true s i (invariant_predicate R) (fun b j => b = false -> j = i).
Proof. intros; unfold invariant_predicate; kk. Qed.
#[local] Hint Resolve k_invariant_predicate : keep.
Lemma k_aborts_with_predicate : forall s i, K s R_CURLY -> keep true s i (aborts_with_predicate R) (fun b j => b = false -> j = i).
Proof. intros; unfold aborts_with_predicate; kk. Qed.
#[local] Hint Resolve k_aborts_with_predicate : keep.
Lemma k_axiom_predicate : forall s i, K s R_CURLY -> keep true s i (axiom_predicate R) (fun b j => b = false -> j = i).
Proof. intros; unfold axiom_predicate; kk. Qed.
#[local] Hint Resolve k_axiom_predicate : keep.
Lemma k_spec_predicate : forall s i, K s R_CURLY -> keep true s i (spec_predicate R) (fun b j => b = false -> j = i).
Proof. intros; unfold spec_predicate; kk. Qed.
#[local] Hint Resolve k_spec_predicate : keep.
Lemma k_update_stmt : forall s i, K s R_CURLY -> keep true s i (update_stmt R) (fun b j => b = false -> j = i).
Proof. intros; unfold update_stmt; kk. Qed.
#[local] Hint Resolve k_update_stmt : keep.
Lemma k_pragma_stmt : forall s i, K s R_CURLY -> keep true s i (pragma_stmt R) (fun b j => b = false -> j = i).
Proof. intros; unfold pragma_stmt; kk. Qed.
#[local] Hint Resolve k_pragma_stmt : keep.
Lemma k_schema_field : forall s i, K s R_CURLY -> keep true s i (schema_field R) (fun b j => b = false -> j = i).
Proof.
  intros s i KS. unfold schema_field. eapply k_bind; [apply (k_marked _ _ _ _ _ _ (fun _ b j => b = false -> j = i))|intros [c b] j _ _ q; apply k_ret; exact q]. kk.
Qed.
#[local] Hint Resolve k_schema_field : keep.
Lemma k_global_variable : forall s i, K s R_CURLY -> keep true s i (global_variable R) (fun b j => b = false -> j = i).
Proof.
  intros s i KS. unfold global_variable. eapply k_bind; [apply (k_marked _ _ _ _ _ _ (fun _ b j => b = false -> j = i))|intros [c b] j _ _ q; apply k_ret; exact q]. kk.
Qed.
#[local] Hint Resolve k_global_variable : keep.
Lemma k_schema_lit : forall s i, K s R_CURLY -> keep true s i (schema_lit R) any.
Proof.
  intros s i KS. unfold schema_lit. eapply (k_bind _ _ _ _ _ _ _ any); [apply k_node_any|intros; kk]. eapply k_bind; [katom|]. intros ? j L1 L2 _. apply k_bind_ask. intros b O. destruct b; [learn O|kk].
  apply k_inside. intros I. eapply (k_bind _ _ _ _ _ _ _ any); [apply k_node_any|intros; kk]. eapply k_bind; [katom|]. intros ? j2 ? ? q. cbv beta in q. destruct q as [-> _]. cbn [n_raw].
  apply (k_braced _ _ _ true); auto.
  - intros m KM _. kk.
  - intros ? m j2 L3 L4 L5 KM. eapply k_any. apply k_expect; [reflexivity|kclear].
Qed.
#[local] Hint Resolve k_schema_lit : keep.
Lemma k_inner_expr : forall bp s i, keep true s i (inner_expr R bp) any.
Proof. intros; unfold inner_expr; kk. Qed.
#[local] Hint Resolve k_inner_expr : keep.
Lemma k_include_if_else_expr : forall s i, K s R_CURLY -> keep true s i (include_if_else_expr R) any.
Proof. intros; unfold include_if_else_expr; kk. Qed.
#[local] Hint Resolve k_include_if_else_expr : keep.
Lemma k_include_schema_expr : forall s i, K s R_CURLY -> keep true s i (include_schema_expr R) any.
Proof. intros; unfold include_schema_expr; kk. Qed.
#[local] Hint Resolve k_include_schema_expr : keep.
Lemma k_include_schema : forall s i, K s R_CURLY -> keep true s i (include_schema R) (fun b j => b = false -> j = i).
Proof. intros; unfold include_schema; kk. Qed.
#[local] Hint Resolve k_include_schema : keep.
Lemma k_opt_wildcard_pattern_modifier : forall s i, keep true s i opt_wildcard_pattern_modifier any.
Proof. intros; unfold opt_wildcard_pattern_modifier; kk. Qed.
#[local] Hint Resolve k_opt_wildcard_pattern_modifier : keep.
Lemma k_wildcard_pattern : forall s i, keep true s i wildcard_pattern any.
Proof. intros; unfold wildcard_pattern; kk. Qed.
#[local] Hint Resolve k_wildcard_pattern : keep.
Lemma k_wildcard_pattern_list : forall s i, keep true s i wildcard_pattern_list any.
Proof. intros; unfold wildcard_pattern_list; kk. Qed.
#[local] Hint Resolve k_wildcard_pattern_list : keep.
Lemma k_apply_to : forall s i, K i IDENT -> keep true s i apply_to any.
Proof. intros; unfold apply_to; kk. Qed.
#[local] Hint Resolve k_apply_to : keep.
Lemma k_apply_except : forall s i, keep true s i apply_except any.
Proof. intros; unfold apply_except; kk. Qed.
#[local] Hint Resolve k_apply_except : keep.
Lemma k_apply_schema : forall s i, K s R_CURLY -> keep true s i (apply_schema R) (fun b j => b = false -> j = i).
Proof. intros; unfold apply_schema; kk. Qed.
#[local] Hint Resolve k_apply_schema : keep.
Lemma k_opt_inner_public_modifier : forall s i, keep true s i opt_inner_public_modifier any.
Proof. intros; unfold opt_inner_public_modifier; kk. Qed.
#[local] Hint Resolve k_opt_inner_public_modifier : keep.
Lemma k_visibility_modifier : forall s i, keep true s i visibility_modifier any.
Proof. intros; unfold visibility_modifier; kk. Qed.
#[local] Hint Resolve k_visibility_modifier : keep.
Lemma k_opt_fun_modifiers : forall s i, keep true s i opt_fun_modifiers any.
Proof. intros; unfold opt_fun_modifiers; kk. Qed.
#[local] Hint Resolve k_opt_fun_modifiers : keep.
Lemma k_opt_ret_type : forall s i, keep true s i (opt_ret_type R) any.
Proof. intros; unfold opt_ret_type; kk. Qed.
#[local] Hint Resolve k_opt_ret_type : keep.
Lemma k_acquires : forall s i, keep true s i (acquires R) any.
Proof. intros; unfold acquires; kk. Qed.
#[local] Hint Resolve k_acquires : keep.
Lemma k_fun_signature : forall b s i, keep true s i (fun_signature R b) any.
Proof. intros; unfold fun_signature; kk. Qed.
#[local] Hint Resolve k_fun_signature : keep.
Lemma k_fun_body : forall s i, K s R_CURLY -> keep true s i (fun_body R) any.
Proof. intros; unfold fun_body; kk. Qed.
#[local] Hint Resolve k_fun_body : keep.
Lemma k_spec_inline_function : forall s i, K s R_CURLY -> keep true s i (spec_inline_function R) any.
Proof. intros; unfold spec_inline_function; kk. Qed.
#[local] Hint Resolve k_spec_inline_function : keep.
Lemma k_use_rest : forall s i, K s R_CURLY -> keep true s i (use_rest R) any.
Proof. intros; unfold use_rest; kk. Qed.
#[local] Hint Resolve k_use_rest : keep.
Lemma k_use_alias : forall s i, keep true s i use_alias any.
Proof. intros; unfold use_alias; kk. Qed.
#[local] Hint Resolve k_use_alias : keep.
Lemma k_use_group : forall f s i, keep f s i (use_group R) any.
Proof.
  intros f s i. apply k_inside. intros I. unfold use_group. apply k_bind_assert. intros O. learn O. eapply (k_bind _ _ _ _ _ _ _ any); [apply k_node_any|intros; eapply k_any, k_skip]. eapply k_bind; [katom|]. intros ? j ? ? q. cbv beta in q. destruct q as [-> _]. cbn [n_raw].
  apply (k_braced _ _ _ false); auto; [discriminate| |].
  - intros m KM _. apply k_reset. apply k_delimited_own; auto. intros j L1 L2 N. apply k_use_speck.
  - intros ? m j L1 L2 L3 KM. eapply k_any. apply k_expect; [reflexivity|kclear].
Qed.
#[local] Hint Resolve k_use_group : keep.
Lemma k_use_speck_body : forall b s i, keep true s i (use_speck_body R b) (fun b _ => b = true).
Proof. intros b s i. unfold use_speck_body. kk. Qed.
Lemma k_let_stmt : forall b s i, K s R_CURLY -> keep true s i (let_stmt R b) any.
Proof. intros; unfold let_stmt; kk. Qed.
#[local] Hint Resolve k_let_stmt : keep.
Lemma k_proof : forall s i, keep true s i (proof R) any.
Proof. intros; unfold proof; kk. Qed.
#[local] Hint Resolve k_proof : keep.
Lemma k_lemma : forall s i, keep true s i (lemma R) any.
Proof. intros; unfold lemma; kk. Qed.
#[local] Hint Resolve k_lemma : keep.
Lemma k_apply_lemma : forall s i, K s R_CURLY -> keep true s i (apply_lemma R) (fun b j => b = false -> j = i).
Proof. intros; unfold apply_lemma; kk. Qed.
#[local] Hint Resolve k_apply_lemma : keep.
Lemma k_forall_apply_lemma : forall s i, K s R_CURLY -> keep true s i (forall_apply_lemma R) (fun b j => b = false -> j = i).
Proof.
  intros s i KS. apply k_inside. intros I. unfold forall_apply_lemma. apply k_bind_ask. intros b O. destruct b; [learn O|kret]. eapply (k_bind _ _ _ _ _ _ _ any); [apply k_node_any|intros; kret].
  eapply k_bind; [katom|]. intros ? j ? ? q. cbv beta in q. subst j. eapply k_bind; [apply k_quant_bindings; [split; auto|exact I]|]. intros ? j ? ? N. cbv beta in N.
  apply (k_bind _ _ _ _ _ _ _ any); [|intros; kk]. apply k_bind_ask. intros b O. destruct b; [learn O; contradiction|kk].
Qed.
#[local] Hint Resolve k_forall_apply_lemma : keep.
Lemma k_post_stmt : forall s i, K s R_CURLY -> keep true s i (post_stmt R) (fun b j => b = false -> j = i).
Proof.
  intros s i KS. unfold post_stmt. apply k_bind_ask. intros b O. destruct b; [learn O|kret]. match goal with H : reads _ _ _ = true |- _ => pose proof (tm_post _ _ TM i ltac:(assumption) H) end. kk.
Qed.
#[local] Hint Resolve k_post_stmt : keep.
Lemma k_split_stmt : forall s i, K s R_CURLY -> keep true s i (split_stmt R) (fun b j => b = false -> j = i).
Proof. intros; unfold split_stmt; kk. Qed.
#[local] Hint Resolve k_split_stmt : keep.
Lemma k_expr_stmt : forall s i, K s R_CURLY -> kind_at T i <> R_CURLY -> keep true s i (expr_stmt R) any.
Proof.
  intros s i KS N. unfold expr_stmt. eapply k_bind; [apply k_ts; katom|]. intros [[c bl]|] j L1 L2 q; cbv beta in q; [kk|]. specialize (q eq_refl N). kk.
Qed.
#[local] Hint Resolve k_expr_stmt : keep.
Lemma k_inline_use : forall s i, K s R_CURLY -> keep true s i (inline_use R) any.
Proof. intros; unfold inline_use; kk. Qed.
#[local] Hint Resolve k_inline_use : keep.
Lemma k_spec_stmt : forall s i, K s R_CURLY -> keep true s i (spec_stmt R) (fun b j => b = false -> j = i).
Proof. intros; unfold spec_stmt; kk. Qed.
#[local] Hint Resolve k_spec_stmt : keep.
Lemma k_proof_stmt : forall s i, K s R_CURLY -> keep true s i (proof_stmt R) (fun b j => b = false -> j = i).
Proof. intros; unfold proof_stmt; kk. Qed.
#[local] Hint Resolve k_proof_stmt : keep.
Lemma k_stmt_rest : forall s i, K s R_CURLY -> kind_at T i <> R_CURLY -> keep true s i (stmt_rest R) any.
Proof.
  intros s i KS N. unfold stmt_rest. apply (k_bind_read _ _ _ _ i (fun e _ => e_sk e)). intros sk _. apply k_bind_ask. intros b O. destruct b; [learn O; kk|]. clear O. destruct sk; [kk| |kk].
  do 3 (apply k_bind_ask; intros b O; destruct b; [learn O; kk|]; clear O). eapply k_bind; [apply k_ts; katom|]. intros b j ? ? q. cbv beta in q. destruct b; [kk|]. rewrite (q eq_refl). kk.
Qed.
#[local] Hint Resolve k_stmt_rest : keep.
Lemma k_stmt_body : forall s i, K s R_CURLY -> kind_at T i <> R_CURLY -> keep true s i (stmt_body R) any.
Proof.
  intros s i KS N. unfold stmt_body. eapply k_bind; [katom|]. intros [c|] j L1 L2 q; cbv beta in q; [|rewrite (q eq_refl); kk]. eapply k_bind; [katom|]. intros ? k ? ? q2. cbv beta in q2. subst k.
  apply k_bind_ask. intros b O. destruct b; [kk|]. unlike O. kk.
Qed.
Lemma held_step : held (unfold_recs R).
Proof.
  constructor; cbn [unfold_recs r_path r_type r_pattern r_expr r_stmt r_attr_item r_use_speck]; intros.
  - apply k_path_body.
  - apply k_type_body.
  - apply k_pattern_body.
  - apply k_expr_bp_body.
  - now apply k_stmt_body.
  - apply k_attr_item_body.
  - apply k_use_speck_body.
Qed.
Lemma k_const_ : forall s i, K s R_CURLY -> keep true s i (const_ R) any.
Proof. intros; unfold const_; kk. Qed.
#[local] Hint Resolve k_const_ : keep.
Lemma k_friend_decl : forall s i, K s R_CURLY -> keep true s i (friend_decl R) any.
Proof. intros; unfold friend_decl; kk. Qed.
#[local] Hint Resolve k_friend_decl : keep.
Lemma k_opt_abilities_list : forall s i, keep true s i opt_abilities_list any.
Proof. intros; unfold opt_abilities_list; kk. Qed.
#[local] Hint Resolve k_opt_abilities_list : keep.
Lemma k_opt_abilities_list_with_semicolon : forall s i, K s R_CURLY -> keep true s i opt_abilities_list_with_semicolon any.
Proof. intros; unfold opt_abilities_list_with_semicolon; kk. Qed.
#[local] Hint Resolve k_opt_abilities_list_with_semicolon : keep.
Lemma k_named_field : forall s i, K s R_CURLY -> kind_at T i <> R_CURLY -> keep true s i (named_field R) any.
Proof.
  intros s i KS N. unfold named_field. eapply k_bind; [apply (k_marked _ _ _ _ _ _ (fun _ bad j => bad = true -> j = i)); kk|]. intros [c bad] j L1 L2 q. cbn [fst snd] in q. destruct bad; [rewrite (q eq_refl)|]; kk.
Qed.
#[local] Hint Resolve k_named_field : keep.
Lemma k_named_field_list : forall f s i, keep f s i (named_field_list R) any.
Proof.
  intros f s i. apply k_inside. intros I. unfold named_field_list. apply k_bind_assert. intros O. learn O. eapply (k_bind _ _ _ _ _ _ _ any); [apply k_node_any|intros; eapply k_any, k_skip]. eapply k_bind; [katom|]. intros ? j ? ? q. cbv beta in q. destruct q as [-> _]. cbn [n_raw].
  apply (k_braced _ _ _ false); auto; [discriminate| |].
  - intros m KM _. apply k_iterate_own; [rewrite KM; reflexivity|]. intros u j L1 L2 N. assert (NR : kind_at T j <> R_CURLY) by (intros E; rewrite E in N; discriminate). kk.
  - intros ? m j L1 L2 L3 KM. eapply k_any. apply k_expect; [reflexivity|kclear].
Qed.
#[local] Hint Resolve k_named_field_list : keep.
Lemma k_tuple_field_list : forall s i, keep true s i (tuple_field_list R) any.
Proof. intros; unfold tuple_field_list; kk. Qed.
#[local] Hint Resolve k_tuple_field_list : keep.
Lemma k_struct_ : forall s i, K s R_CURLY -> keep true s i (struct_ R) any.
Proof. intros; unfold struct_; kk. Qed.
#[local] Hint Resolve k_struct_ : keep.
(** without attributes the variants of an enum stay inside its braces *)
Lemma k_enum_variant : forall s i, K s R_CURLY -> kind_at T i <> R_CURLY -> kind_at T i <> POUND -> keep true s i (enum_variant R) any.
Proof.
  intros s i KS N NP. unfold enum_variant. eapply k_bind; [apply (k_marked _ _ _ _ _ _ (fun _ r j => r = None -> j = i))|intros [c [b|]] j L1 L2 q; cbn [fst snd] in q; [kk|rewrite (q eq_refl); kk]].
  eapply (k_bind _ _ _ _ _ _ _ (fun _ j => j = i)); [|intros ? j _ _ ->; kk]. unfold attrs. apply (k_loop _ _ _ (fun _ j => j = i)); auto. intros last j _ _ ->. apply k_bind_ask. intros b O. destruct b; [learn O; contradiction|]. now apply k_ret.
Qed.
Lemma k_enum_variant_list : forall f s i, (forall m, matching T i m -> m < s -> forall y, i < y -> y < m -> kind_at T y <> POUND) -> keep f s i (enum_variant_list R) any.
Proof.
  intros f s i NP. apply k_inside. intros I. unfold enum_variant_list. apply k_bind_assert. intros O. learn O. eapply (k_bind _ _ _ _ _ _ _ any); [apply k_node_any|intros; eapply k_any, k_skip]. eapply k_bind; [katom|]. intros ? j ? ? q. cbv beta in q. destruct q as [-> _]. cbn [n_raw].
  destruct (inside_open _ _ _ _ I ltac:(assumption)) as (m & L1 & L2 & KM & IM & MM). eapply k_bind; [apply (k_nested _ _ f false s m _ _ any); auto; [discriminate|]|].
  - apply k_iterate_own; [rewrite KM; reflexivity|]. intros u j L3 L4 N. assert (NR : kind_at T j <> R_CURLY) by (intros E; rewrite E in N; discriminate). assert (j <> m) by congruence.
    eapply (k_bind _ _ _ _ _ _ _ any); [apply k_enum_variant; auto; apply (NP m); auto; lia|intros; kk].
  - intros ? j L3 L4 [L5 _]. eapply k_any. apply k_expect; [reflexivity|kclear].
Qed.
Lemma k_enum_ : forall s i, tame_items T X -> K s R_CURLY -> K i IDENT -> reads X i "enum" = true -> keep true s i (enum_ R) any.
Proof.
  intros s i TI KS KI RI. apply k_inside. intros I. unfold enum_. eapply k_bind; [katom|]. intros ? j ? ? q. cbv beta in q. subst j. eapply k_bind; [katom|]. intros ok j ? ? _. destruct ok; [|kk].
  eapply k_bind; [katom|]. intros ? j2 ? ? _. eapply (k_bind _ _ _ _ _ _ _ any); [kk|]. intros ? j3 ? ? _. eapply (k_bind _ _ _ _ _ _ _ any); [|intros; kk].
  apply k_bind_ask. intros b O. destruct b; [learn O|kk]. apply k_enum_variant_list. intros m M Lm. apply (ti_enum _ _ TI i j3 m s); auto. lia.
Qed.
Lemma k_function : forall s i, K s R_CURLY -> keep true s i (function R) any.
Proof. intros; unfold function; kk. Qed.
#[local] Hint Resolve k_function : keep.
Lemma k_spec_function : forall s i, K s R_CURLY -> keep true s i (spec_function R) any.
Proof. intros; unfold spec_function; kk. Qed.
#[local] Hint Resolve k_spec_function : keep.
Lemma k_item_spec_param : forall s i, keep true s i (item_spec_param R) any.
Proof. intros; unfold item_spec_param; kk. Qed.
#[local] Hint Resolve k_item_spec_param : keep.
Lemma k_item_spec_param_list : forall s i, keep true s i (item_spec_param_list R) any.
Proof. intros; unfold item_spec_param_list; kk. Qed.
#[local] Hint Resolve k_item_spec_param_list : keep.
(** without type parameters *)
Lemma k_item_spec_signature : forall s i, tame_items T X -> K s R_CURLY -> K i SPEC_KW -> keep true s (i + 1) (with_rs (plus_ts item_start_rec_set [L_CURLY]) (item_spec_signature R)) any.
Proof.
  intros s i TI KS KI. unfold item_spec_signature. set (rs := plus_ts item_start_rec_set [L_CURLY]).
  change (keep true s (i + 1) (mbind (marked (with_rs rs (IF name_ref_or_recover THEN ret (Complete ITEM_SPEC_REF, tt) ELSE ret (Abandon, tt)))) (fun _ => with_rs rs (
    (IF at_ L_ANGLE THEN item_spec_type_param_list ELSE skip) ;;
    IF at_ L_PAREN THEN (item_spec_param_list R ;; with_ts [L_CURLY] (opt_ret_type R)) ELSE skip))) any).
  set (Q := fun j => forall y, i + 1 <= y -> y < j -> GrammarBase.mem (kind_at T y) [L_CURLY; R_CURLY] = false).
  assert (Q1 : Q (i + 1)) by (intros y; lia).
  eapply (k_bind _ _ _ _ _ _ _ (fun _ j => Q j)).
  - apply (k_marked _ _ _ _ _ _ (fun _ _ j => Q j)). eapply (k_weak _ _ _ _ _ _ (fun _ j => Q j)); [|intros [c []] j _ _ q; cbn [fst snd]; destruct (kept c); auto].
    change (keep true s (i + 1) (mbind (at_ IDENT) (fun b : bool => with_rs rs (IF (if b then (outer <- outer_rs ;; IF rs_test outer THEN (err "expected identifier" ;; ret false) ELSE (node NAME_REF (bump IDENT) ;; ret true)) else (error_and_recover "expected identifier" rs_empty ;; ret false)) THEN ret (Complete ITEM_SPEC_REF, tt) ELSE ret (Abandon, tt)))) (fun _ j => Q j)).
    apply k_bind_ask. intros b O. destruct b.
    + learn O. apply k_rs. eapply (k_bind _ _ _ _ _ _ _ (fun _ j => Q j)); [|intros [] j _ _ q; now apply k_ret].
      apply (k_bind_read _ _ _ _ _ (fun e _ => e_rs e)). intros outer _. apply k_bind_ask. intros b O2. destruct b.
      * eapply k_bind; [apply k_err|]. intros ? j ? ? q. cbv beta in q. subst j. now apply k_ret.
      * eapply (k_bind _ _ _ _ _ _ _ (fun _ j => j = i + 1 + 1)); [eapply k_node; [katom|intros ? j [-> _]; reflexivity]|].
        intros ? j ? ? q. cbv beta in q. subst j. apply k_ret. intros y L1 L2. replace y with (i + 1) by lia. match goal with H : kind_at T (i + 1) = _ |- _ => now rewrite H end.
    + change (keep true s (i + 1) (mbind (mbind (with_rs rs (error_and_recover "expected identifier" rs_empty)) (fun _ => ret false)) (fun b : bool => with_rs rs (if b then ret (Complete ITEM_SPEC_REF, tt) else ret (Abandon, tt)))) (fun _ j => Q j)).
      eapply (k_bind _ _ _ _ _ _ _ (fun _ j => Q j)); [|intros [] j _ _ q; apply k_rs; now apply k_ret].
      eapply k_bind; [apply (k_recover_stops _ _ _ _ _ _ _ [L_CURLY; R_CURLY])|intros ? j _ _ q; apply k_ret; exact q].
      intros k Hk. cbn in Hk. destruct k; try discriminate Hk; split; try discriminate; auto.
  - intros ? j L1 L2 q. cbv beta in q. apply k_rs. eapply (k_bind _ _ _ _ _ _ _ any); [|intros; kk]. apply k_bind_ask. intros b O. destruct b; [learn O|kk]. exfalso.
    match goal with H : kind_at T j = L_ANGLE |- _ => destruct (ti_spec _ _ TI i j KI ltac:(lia) H) as (x & X1 & X2 & [X3|X3]) end; (specialize (q x ltac:(lia) X2); rewrite X3 in q; discriminate).
Qed.
Lemma k_item_spec : forall s i, tame_items T X -> K s R_CURLY -> K i SPEC_KW -> keep true s (i + 1) (item_spec R) any.
Proof.
  intros s i TI KS KI. unfold item_spec. eapply (k_bind _ _ _ _ _ _ _ any); [|intros; kk]. apply k_bind_ask. intros b O. destruct b; [learn O; kk|]. now apply k_item_spec_signature.
Qed.
Lemma k_schema : forall s i, K s R_CURLY -> keep true s i (schema R) any.
Proof. intros; unfold schema; kk. Qed.
#[local] Hint Resolve k_schema : keep.
Lemma k_opt_item : forall s i, tame_items T X -> K s R_CURLY -> keep true s i (opt_item R) any.
Proof.
  intros s i TI KS. pose proof (fun j KI => k_item_spec s j TI KS KI) as HS. pose proof (fun j KI RI => k_enum_ s j TI KS KI RI) as HE. unfold opt_item. kk.
Qed.
Lemma k_item : forall s i, tame_items T X -> K s R_CURLY -> kind_at T i <> R_CURLY -> keep true s i (item R) any.
Proof. intros s i TI KS N. pose proof (fun j => k_opt_item s j TI KS) as HO. unfold item. eapply (k_bind _ _ _ _ _ _ _ any); [kk|]. intros [c ok] j L1 L2 _. destruct ok; [kk|]. apply k_bind_ask. intros b O. destruct b; [learn O; kk|]. apply k_bind_ask. intros b O2. destruct b; [kk|unlike O2]. kk. Qed.
Definition items : M unit := iterate_to_EOF [R_CURLY] (fun _ : unit => with_ts [R_CURLY] (item R) ;; ret (true, tt)) tt.
Lemma k_items : forall f m i, tame_items T X -> K m R_CURLY -> keep f m i items any.
Proof.
  intros f m i TI KM. apply k_iterate_own; [rewrite KM; reflexivity|]. intros u j L1 L2 N. assert (NR : kind_at T j <> R_CURLY) by (intros E; rewrite E in N; discriminate). eapply (k_bind _ _ _ _ _ _ _ any); [apply k_ts; now apply k_item|intros; kk].
Qed.
Lemma k_item_list : forall f s i, tame_items T X -> keep f s i (item_list R) any.
Proof.
  intros f s i TI. apply k_inside. intros I. unfold item_list. apply k_bind_assert. intros O. learn O. eapply k_bind; [katom|]. intros ? j ? ? q. cbv beta in q. destruct q as [-> _]. cbn [n_raw].
  apply (k_braced _ _ _ false); auto; [discriminate| |].
  - intros m KM _. now apply k_items.
  - intros ? m j L1 L2 L3 KM. eapply k_bind; [apply k_expect; [reflexivity|kclear]|]. intros ? j2 ? ? _. eapply k_any, k_skip.
Qed.
(** a module, inside the braces of an address block *)
Lemma k_module : forall s i, tame_items T X -> K s R_CURLY -> keep true s i (module R) any.
Proof. intros s i TI KS. pose proof (fun j => k_item_list true s j TI) as HI. unfold module. kk. Qed.
End Step.
Lemma held_run : forall n, held (run n).
Proof. induction n as [|n IH]; [|cbn [run]; now apply held_step]. constructor; intros; cbn; apply k_fuel. Qed.
End All.
