(** The parser reads the files of the grammar of ShapeSpec.v without an error and builds their trees (C48). *)
From Coq Require Import String.
From Verif Require Import Base SyntaxKind ParserModel GrammarBase AddressModel TreeSinkModel TreeSinkSpec TreeSinkProps ParserSpec ParserProofs ParserProofs2 ParserProps GrammarDisc LexerModel LexerSpec LexerProofs LexerProps PrecSpec PrecRun PrecBasics PrecProofs ShapeSpec ShapeBasics ShapeFacts GrammarModel GrammarProps GrammarSafeProps ShapeDefs ShapeTypes ShapeOps ShapeExprs ShapeItems PrecProps.
Close Scope string_scope.
Close Scope N_scope.
Open Scope nat_scope.
Open Scope gram_scope.

(** * All productions together *)
Lemma der_reads : forall T X, good T X -> forall x i cs j, der T X x i cs j -> P T X x i cs j.
Proof.
  intros T X G x i cs j H. induction H.
  - eapply case_c_end; eassumption.
  - eapply case_c_one; eassumption.
  - eapply case_c_more; eassumption.
  - eapply case_path; eassumption.
  - eapply case_segs_one; eassumption.
  - eapply case_segs_more; eassumption.
  - eapply case_seg_name; eassumption.
  - eapply case_seg_any; eassumption.
  - eapply case_seg_addr; eassumption.
  - eapply case_args_none; eassumption.
  - eapply case_args_no_type; eassumption.
  - eapply case_args_type; eassumption.
  - eapply case_args_no_expr; eassumption.
  - eapply case_args_expr; eassumption.
  - eapply case_eargs; eassumption.
  - eapply case_eargs_colon; eassumption.
  - eapply case_targ; eassumption.
  - eapply case_t_path; eassumption.
  - eapply case_t_ref; eassumption.
  - eapply case_t_mut; eassumption.
  - eapply case_t_unit; eassumption.
  - eapply case_t_paren; eassumption.
  - eapply case_t_tuple; eassumption.
  - eapply case_t_lambda; eassumption.
  - eapply case_lparam; eassumption.
  - eapply case_lret_none; eassumption.
  - eapply case_lret; eassumption.
  - eapply case_lhas_none; eassumption.
  - eapply case_lhas; eassumption.
  - eapply case_ab_one; eassumption.
  - eapply case_ab_more; eassumption.
  - eapply case_tparam; eassumption.
  - eapply case_tparam_bound; eassumption.
  - eapply case_tparam_phantom; eassumption.
  - eapply case_tparam_phantom_bound; eassumption.
  - eapply case_tparams_none; eassumption.
  - eapply case_tparams; eassumption.
  - eapply case_p_ident; eassumption.
  - eapply case_p_wild; eassumption.
  - eapply case_p_path; eassumption.
  - eapply case_p_tuple_struct; eassumption.
  - eapply case_p_struct; eassumption.
  - eapply case_p_lit; eassumption.
  - eapply case_p_range; eassumption.
  - eapply case_p_rest; eassumption.
  - eapply case_p_unit; eassumption.
  - eapply case_p_paren; eassumption.
  - eapply case_p_tuple; eassumption.
  - eapply case_pf_named; eassumption.
  - eapply case_pf_short; eassumption.
  - eapply case_pf_wild; eassumption.
  - eapply case_pf_rest; eassumption.
  - eapply case_lit_tok; eassumption.
  - eapply case_lit_addr; eassumption.
  - eapply case_lit_named; eassumption.
  - eapply case_litp; eassumption.
  - eapply case_litp_minus; eassumption.
  - eapply case_e_any; eassumption.
  - eapply case_e_opnd; eassumption.
  - eapply case_e_bin; eassumption.
  - eapply case_e_cast; eassumption.
  - eapply case_e_is; eassumption.
  - eapply case_is_one; eassumption.
  - eapply case_is_more; eassumption.
  - eapply case_o_prim; eassumption.
  - eapply case_o_greedy; eassumption.
  - eapply case_o_borrow; eassumption.
  - eapply case_o_borrow_mut; eassumption.
  - eapply case_o_prefix; eassumption.
  - eapply case_o_copy; eassumption.
  - eapply case_o_lambda; eassumption.
  - eapply case_lam_id; eassumption.
  - eapply case_lam_wild; eassumption.
  - eapply case_lam_typed; eassumption.
  - eapply case_pr_atom; eassumption.
  - eapply case_pr_call; eassumption.
  - eapply case_pr_index; eassumption.
  - eapply case_pr_field; eassumption.
  - eapply case_pr_pos; eassumption.
  - eapply case_pr_method; eassumption.
  - eapply case_pr_method_t; eassumption.
  - eapply case_args; eassumption.
  - eapply case_arg; eassumption.
  - eapply case_a_lit; eassumption.
  - eapply case_a_path; eassumption.
  - eapply case_a_struct; eassumption.
  - eapply case_sf_named; eassumption.
  - eapply case_sf_short; eassumption.
  - eapply case_a_unit; eassumption.
  - eapply case_a_paren; eassumption.
  - eapply case_a_annot; eassumption.
  - eapply case_a_tuple; eassumption.
  - eapply case_a_vector; eassumption.
  - eapply case_a_assert; eassumption.
  - eapply case_a_block; eassumption.
  - eapply case_a_if; eassumption.
  - eapply case_a_if_else; eassumption.
  - eapply case_a_loop; eassumption.
  - eapply case_a_labelled; eassumption.
  - eapply case_a_match; eassumption.
  - eapply case_a_return; eassumption.
  - eapply case_a_abort; eassumption.
  - eapply case_a_break; eassumption.
  - eapply case_a_break_label; eassumption.
  - eapply case_a_continue; eassumption.
  - eapply case_a_continue_label; eassumption.
  - eapply case_me_none; eassumption.
  - eapply case_me_some; eassumption.
  - eapply case_cond; eassumption.
  - eapply case_br_block; eassumption.
  - eapply case_br_inline; eassumption.
  - eapply case_l_loop; eassumption.
  - eapply case_l_while; eassumption.
  - eapply case_l_for; eassumption.
  - eapply case_arms_nil; eassumption.
  - eapply case_arms_cons; eassumption.
  - eapply case_arm; eassumption.
  - eapply case_guard_none; eassumption.
  - eapply case_guard; eassumption.
  - eapply case_ab_expr; eassumption.
  - eapply case_ab_last; eassumption.
  - eapply case_ab_block; eassumption.
  - eapply case_ab_block_comma; eassumption.
  - eapply case_block; eassumption.
  - eapply case_stmts_nil; eassumption.
  - eapply case_stmts_cons; eassumption.
  - eapply case_s_empty; eassumption.
  - eapply case_s_let; eassumption.
  - eapply case_s_let_type; eassumption.
  - eapply case_s_let_init; eassumption.
  - eapply case_s_let_all; eassumption.
  - eapply case_s_use; eassumption.
  - eapply case_s_expr; eassumption.
  - eapply case_s_last; eassumption.
  - eapply case_s_block; eassumption.
  - eapply case_s_block_semi; eassumption.
  - eapply case_s_block_last; eassumption.
  - eapply case_attrs_nil; eassumption.
  - eapply case_attrs_cons; eassumption.
  - eapply case_attr; eassumption.
  - eapply case_ai_plain; eassumption.
  - eapply case_ai_value; eassumption.
  - eapply case_ai_list; eassumption.
  - eapply case_us_plain; eassumption.
  - eapply case_us_alias; eassumption.
  - eapply case_us_group; eassumption.
  - eapply case_field; eassumption.
  - eapply case_tfield; eassumption.
  - eapply case_has_none; eassumption.
  - eapply case_has; eassumption.
  - eapply case_hs_none; eassumption.
  - eapply case_hs_some; eassumption.
  - eapply case_vars_end; eassumption.
  - eapply case_vars_last; eassumption.
  - eapply case_vars_comma; eassumption.
  - eapply case_vars_next; eassumption.
  - eapply case_var_unit; eassumption.
  - eapply case_var_tuple; eassumption.
  - eapply case_var_named; eassumption.
  - eapply case_vis_public; eassumption.
  - eapply case_vis_public_package; eassumption.
  - eapply case_vis_public_kw; eassumption.
  - eapply case_vis_friend; eassumption.
  - eapply case_vis_package; eassumption.
  - eapply case_ov_none; eassumption.
  - eapply case_ov_some; eassumption.
  - eapply case_mod_vis; eassumption.
  - eapply case_mod_kw; eassumption.
  - eapply case_mod_entry; eassumption.
  - eapply case_mods_nil; eassumption.
  - eapply case_mods_cons; eassumption.
  - eapply case_param_id; eassumption.
  - eapply case_param_wild; eassumption.
  - eapply case_params; eassumption.
  - eapply case_ret_none; eassumption.
  - eapply case_ret_some; eassumption.
  - eapply case_acq_none; eassumption.
  - eapply case_acq_some; eassumption.
  - eapply case_pts_one; eassumption.
  - eapply case_pts_more; eassumption.
  - eapply case_fb_block; eassumption.
  - eapply case_fb_semi; eassumption.
  - eapply case_i_use; eassumption.
  - eapply case_i_friend; eassumption.
  - eapply case_i_const; eassumption.
  - eapply case_i_struct; eassumption.
  - eapply case_i_struct_unit; eassumption.
  - eapply case_i_struct_tuple; eassumption.
  - eapply case_i_enum; eassumption.
  - eapply case_i_fun; eassumption.
  - eapply case_items_nil; eassumption.
  - eapply case_items_cons; eassumption.
  - eapply case_addr_num; eassumption.
  - eapply case_addr_name; eassumption.
  - eapply case_module_addr; eassumption.
  - eapply case_module_bare; eassumption.
  - eapply case_modules_nil; eassumption.
  - eapply case_modules_cons; eassumption.
  - eapply case_top_module; eassumption.
  - eapply case_top_script; eassumption.
  - eapply case_top_address; eassumption.
  - eapply case_file_nil; eassumption.
  - eapply case_file_cons; eassumption.
Qed.

(** * Files *)
(** words that are names unless something particular follows them are identifiers for the lexer *)
Definition words_are_names (l : list (raw_token * text)) : Prop := forall t x s, In (t, x) l -> In s bare_words -> x = str s -> rt_kind t = IDENT.
(** [l] spells a file with the tree calls [cs] *)
Definition spells_file (l : list (raw_token * text)) (cs : list call) : Prop := der (tokens_of l) (texts_of l) File 0 cs (length (tokens_of l)).

Lemma nth_significant : forall l o i, i < length (significant_ l) -> exists t x, In (t, x) l /\ nth i (map snd (significant_ l)) [] = x /\ kind_at (significant o (map fst l)) i = rt_kind t.
Proof.
  induction l as [|[t x] l IH]; intros o i L; [cbn in L; lia|]. cbn [significant_ filter fst significant map] in *. destruct (is_trivia (rt_kind t)) eqn:TR; cbn [negb] in *.
  - destruct (IH (o + rt_len t) i L) as (t' & x' & A & B & C). exists t', x'. split; [now right|auto].
  - destruct i as [|i].
    + exists t, x. split; [now left|]. split; reflexivity.
    + cbn [length] in L. destruct (IH (o + rt_len t) i ltac:(unfold significant_; lia)) as (t' & x' & A & B & C). exists t', x'. split; [now right|]. split; [exact B|]. exact C.
Qed.
Lemma file_good : forall l, no_eof_in l -> words_are_names l -> good (tokens_of l) (texts_of l).
Proof.
  intros l N W. constructor; [apply significant_kinds; exact N|apply texts_tokens|].
  intros i s Hs E. unfold word, texts_of in E. destruct (le_lt_dec (length (significant_ l)) i) as [L|L].
  - rewrite nth_overflow in E by (rewrite map_length; exact L). exfalso. clear -Hs E. cbn in Hs. repeat (destruct Hs as [<-|Hs]; [discriminate E|]). exact Hs.
  - destruct (nth_significant l 0 i L) as (t & x & A & B & C). unfold tokens_of. rewrite C. eapply W; eauto. congruence.
Qed.

(** The parser reads a well-formed file to its end, without an assertion failing, and replaying its events gives the
    nodes and tokens of the grammar and no error. *)
Theorem well_formed_file_parses : forall debug l cs, no_eof_in l -> words_are_names l -> spells_file l cs ->
  exists p, parse_events debug l = Ret tt p /\ p_pos p = length (tokens_of l) /\ process (p_events p) = Ok (CStart SOURCE_FILE :: cs ++ [CFinish]).
Proof.
  intros debug l cs N W D. pose proof (file_good l N W) as G. pose proof (der_reads _ _ G _ _ _ _ D) as H. cbn [P] in H.
  set (p0 := parser_new (map fst l)) in *. set (e := file_env debug l).
  assert (IE : inner (texts_of l) e) by (split; [reflexivity|split; [reflexivity|split; [intros k []|reflexivity]]]).
  specialize (H (enough p0) e IE). assert (DP : 3 * (length (tokens_of l) - 0) + 0 < enough p0) by (unfold enough; change (p_toks p0) with (tokens_of l); lia). specialize (H DP). apply r_iter in H.
  destruct (y_node_any e (tokens_of l) _ SOURCE_FILE 0 _ _ eq_refl H [] p0 base_frame [] eq_refl eq_refl (new_solid _)) as (c & p' & r & E & P' & R & a & ch & -> & C & _); [rewrite add_nil; now apply begin_inv|].
  exists p'. split; [|split; [exact P'|]].
  - unfold parse_events, source_file. fold p0. fold e. unfold mbind at 1. unfold top_step in E. rewrite E. reflexivity.
  - destruct R as (os & ST & _). rewrite add_nil in ST. rewrite (replay_when_closed _ _ _ _ N ST). cbn [base_frame add_items f_items app flat_map]. rewrite app_nil_r. cbn [build]. rewrite C. reflexivity.
Qed.

Definition not_error (c : call) : bool := match c with CError _ => false | _ => true end.
Lemma clean_app : forall a b, forallb not_error a = true -> forallb not_error b = true -> forallb not_error (a ++ b) = true.
Proof. intros a b A B. now rewrite forallb_app, A, B. Qed.
Lemma clean_cons : forall c b, not_error c = true -> forallb not_error b = true -> forallb not_error (c :: b) = true.
Proof. intros a b A B. cbn [forallb]. now rewrite A, B. Qed.
Lemma clean_n : forall k b, forallb not_error b = true -> forallb not_error (N k b) = true.
Proof. intros k b B. unfold N. apply clean_cons; auto. apply clean_app; auto. Qed.
Lemma der_clean : forall T X x i cs j, der T X x i cs j -> forallb not_error cs = true.
Proof.
  intros T X x i cs j H. induction H; repeat first [assumption | reflexivity | apply clean_cons; [reflexivity|] | apply clean_n | apply clean_app].
  all: match goal with |- forallb _ (if ?b then _ else _) = true => destruct b | _ => idtac end.
Qed.

(** the sink reports the errors it is told *)
Lemma do_token_errors : forall tx k len n s s', do_token tx k len n s = Ok s' -> sk_errors s' = sk_errors s.
Proof. intros tx k len n s s' H. unfold do_token in H. destruct (slice _ _ _); [|discriminate]. now injection H as <-. Qed.
Lemma eat_trivias_errors : forall tx l s s', eat_trivias_list tx l s = Ok s' -> sk_errors s' = sk_errors s.
Proof.
  intros tx. induction l as [|t l IH]; intros s s' H; cbn [eat_trivias_list] in H; [now injection H as <-|]. destruct (is_trivia (rt_kind t)); [|now injection H as <-].
  destruct (do_token _ _ _ _ _) as [s1|] eqn:E; [|discriminate]. cbn [bind] in H. rewrite (IH _ _ H). eapply do_token_errors; eauto.
Qed.
Lemma eat_n_trivias_errors : forall tx toks n s s', eat_n_trivias tx toks n s = Ok s' -> sk_errors s' = sk_errors s.
Proof.
  intros tx toks. induction n as [|n IH]; intros s s' H; cbn [eat_n_trivias] in H; [now injection H as <-|]. destruct (nth_error _ _) as [t|]; [|discriminate]. destruct (is_trivia (rt_kind t)); [|discriminate].
  destruct (do_token _ _ _ _ _) as [s1|] eqn:E; [|discriminate]. cbn [bind] in H. rewrite (IH _ _ H). eapply do_token_errors; eauto.
Qed.
Lemma sink_call_errors : forall tx toks c s s', not_error c = true -> sink_call tx toks c s = Ok s' -> sk_errors s' = sk_errors s.
Proof.
  intros tx toks [k| |k n|m] s s' NE H; [| | |discriminate]; cbn [sink_call] in H.
  - unfold sink_start in H.
    assert (G : forall s1, sk_errors s1 = sk_errors s -> bind (rev_texts tx (sk_text_pos s1 + sum_len (take_trivia (skipn (sk_tok_pos s1) toks))) (rev (take_trivia (skipn (sk_tok_pos s1) toks)))) (fun tv =>
      bind (n_attached k tv) (fun na => if na <=? length (take_trivia (skipn (sk_tok_pos s1) toks)) then
        bind (eat_n_trivias tx toks (length (take_trivia (skipn (sk_tok_pos s1) toks)) - na) s1) (fun s2 => eat_n_trivias tx toks na (emit (BStart k) s2)) else Panic)) = Ok s' -> sk_errors s' = sk_errors s).
    { clear H. intros s1 E1 H1. destruct (rev_texts _ _ _) as [tv|]; [|discriminate]. cbn [bind] in H1. destruct (n_attached k tv) as [na|]; [|discriminate]. cbn [bind] in H1. destruct (na <=? _); [|discriminate].
      destruct (eat_n_trivias _ _ _ s1) as [s2|] eqn:E2; [|discriminate]. cbn [bind] in H1. apply eat_n_trivias_errors in H1. apply eat_n_trivias_errors in E2. cbn in H1. congruence. }
    destruct (sk_state s) eqn:ES; [injection H as <-; reflexivity| |]; (eapply G; [|exact H]; reflexivity).
  - unfold sink_finish_node in H. destruct (sk_state s); [discriminate| |]; now injection H as <-.
  - unfold sink_token in H. assert (G : forall s1, sk_errors s1 = sk_errors s -> bind (eat_trivias tx toks s1) (fun s2 => if sk_tok_pos s2 + n <=? length toks then do_token tx k (sum_len (firstn n (skipn (sk_tok_pos s2) toks))) n s2 else Panic) = Ok s' -> sk_errors s' = sk_errors s).
    { clear H. intros s1 E1 H1. destruct (eat_trivias _ _ s1) as [s2|] eqn:E2; [|discriminate]. cbn [bind] in H1. destruct (_ <=? _); [|discriminate]. apply do_token_errors in H1. apply eat_trivias_errors in E2. congruence. }
    destruct (sk_state s); [discriminate| |]; cbn [bind] in H; (eapply G; [|exact H]; reflexivity).
Qed.
Lemma sink_calls_errors : forall tx toks cs s s', forallb not_error cs = true -> sink_calls tx toks cs s = Ok s' -> sk_errors s' = sk_errors s.
Proof.
  intros tx toks. induction cs as [|c cs IH]; intros s s' NE H; cbn [sink_calls] in H; [now injection H as <-|]. cbn [forallb] in NE. apply andb_prop in NE as [N1 N2].
  destruct (sink_call _ _ c s) as [s1|] eqn:E; [|discriminate]. cbn [bind] in H. rewrite (IH _ _ N2 H). eapply sink_call_errors; eauto.
Qed.
Lemma build_tree_errors : forall tx toks cs t errs, forallb not_error cs = true -> build_tree tx toks cs = Ok (t, errs) -> errs = [].
Proof.
  intros tx toks cs t errs NE H. unfold build_tree in H. destruct (sink_calls _ _ _ _) as [s|] eqn:E; [|discriminate]. apply sink_calls_errors in E; auto. cbn [bind] in H. unfold sink_finish in H.
  destruct (sk_state s); try discriminate. destruct (eat_trivias _ _ _) as [s1|] eqn:E1; [|discriminate]. cbn [bind] in H. apply eat_trivias_errors in E1. destruct (b_run _ _) as [b|]; [|discriminate]. cbn [bind] in H.
  destruct (b_finish b); [|discriminate]. cbn [bind] in H. injection H as _ <-. cbn in E1. rewrite E1, E. reflexivity.
Qed.

Lemma calls_tokens_end : forall a, calls_tokens (a ++ [CFinish]) = calls_tokens a.
Proof. induction a as [|[] a IH]; auto; cbn [app calls_tokens]; congruence. Qed.
Lemma marks_of_end : forall a tx, map fst tx = map fst (calls_tokens a) -> marks_of (a ++ [CFinish]) tx = marks_of a tx ++ [BFinish].
Proof.
  induction a as [|[] a IH]; intros tx E; auto; cbn [app marks_of calls_tokens map] in *; try (rewrite IH by assumption; reflexivity).
  destruct tx as [|[k0 x] tx]; [discriminate E|]. injection E as _ E. cbn [app]. now rewrite IH.
Qed.
(** the tree of the file has the nodes of the grammar, and tokens with these kinds *)
Definition has_tree (t : tree) (cs : list call) : Prop :=
  exists tx, map fst tx = map fst (calls_tokens cs) /\ marks (strip_trivia t) = BStart SOURCE_FILE :: marks_of cs tx ++ [BFinish].
(** So the tree of a well-formed file, whitespace and comments apart, is the one of the grammar, it has every character of the file, and
    no error is reported. *)
Theorem well_formed_file_tree : forall debug ts l cs, lexed ts -> Forall (fun x : kind * text => 0 < length (snd x)) ts -> Forall (fun x : kind * text => fst x <> EOF) ts -> map fst l = raw_of ts ->
  words_are_names l -> spells_file l cs ->
  exists t, parse_tokens debug (source ts) l = PTree t [] /\ tree_text t = source ts /\ has_tree t cs.
Proof.
  intros debug ts l cs LX PL NE ET W D. assert (N : no_eof_in l) by (unfold no_eof_in; rewrite ET; unfold no_eof, raw_of; rewrite Forall_map; exact NE).
  destruct (well_formed_file_parses debug l cs N W D) as (p & E & PP & PR). pose proof (parse_run debug l N) as H. rewrite E in H. destruct H as (os & f & h & u & ch & ST & CR & FI & P). rewrite ET in ST, CR.
  destruct (parse_keeps_source ts os p f h u SOURCE_FILE ch LX PL NE CR ST FI P) as (out & t & errs & PR' & BT & TX & (ttx & TT & MK)).
  rewrite PR in PR'. injection PR' as <-. unfold parse_tokens. rewrite E, PR, ET, BT.
  assert (EE : errs = []). { eapply build_tree_errors; [|exact BT]. apply clean_cons; auto. apply clean_app; auto. eapply der_clean; eauto. }
  subst errs. exists t. split; auto. split; auto. assert (BC : build (INode h u SOURCE_FILE ch) = CStart SOURCE_FILE :: cs ++ [CFinish]).
  { rewrite <- ET in ST. pose proof (replay_when_closed _ _ _ _ N ST) as RC. rewrite PR, FI in RC. cbn [flat_map] in RC. rewrite app_nil_r in RC. congruence. }
  rewrite BC in MK. cbn [marks_of] in MK. exists ttx. split.
  - rewrite TT. cbn [calls_tokens]. now rewrite calls_tokens_end.
  - rewrite MK, marks_of_end; auto. rewrite TT. cbn [calls_tokens]. now rewrite calls_tokens_end.
Qed.

(** A word of letters is a token of its own: the lexer never calls it anything but an identifier, unless it takes it for one strange
    character *)
Lemma word_kind : forall k s, In s bare_words -> token_shape k (str s) -> k = IDENT \/ k = BAD_CHARACTER.
Proof.
  intros k s H SH. unfold token_shape in SH. destruct (spelling k) as [w|] eqn:SP.
  - exfalso. cbn in H. repeat (destruct H as [<-|H]; [destruct k; try discriminate SP; injection SP as <-; discriminate SH|]). exact H.
  - assert (B : exists c r, str s = c :: r /\ (97 <= c <= 122)%N /\ c <> 98%N /\ c <> 120%N). { clear -H. cbn in H. repeat (destruct H as [<-|H]; [do 2 eexists; split; [reflexivity|repeat split; discriminate]|]). destruct H. }
    destruct B as (c & r & E & B1 & B2 & B3). rewrite E in SH. destruct k; auto; exfalso; try exact SH.
    all: repeat match goal with H : exists _, _ |- _ => destruct H | H : _ /\ _ |- _ => destruct H | H : _ \/ _ |- _ => destruct H | H : _ :: _ = _ |- _ => injection H as H ? end; subst.
    all: repeat match goal with H : Forall _ (_ :: _) |- _ => inversion H; clear H end; unfold digit, LexerSpec.blank in *; try lia.
Qed.
(** From the text on: a text without strange characters *)
Theorem well_formed_text_tree_partial : forall cl debug t l cs, sensible cl -> ascii_comments t -> tokenize cl t = Some (Ok l) -> Forall (fun x => rt_kind (fst x) <> BAD_CHARACTER) l -> spells_file l cs ->
  exists r, parse_text cl debug t = PTree r [] /\ tree_text r = encode t /\ has_tree r cs.
Proof.
  intros cl debug t l cs SC AC TK NB D. destruct (tokens_fit_sink_partial cl t SC AC) as (l' & EQ & SR & RW & LX & PL & NE). rewrite TK in EQ. injection EQ as <-.
  assert (W : words_are_names l).
  { destruct (tokenize_lossless_partial cl t SC AC) as (l' & EQ & CC & FL & _). rewrite TK in EQ. injection EQ as <-. intros r x s I Hs ->. rewrite Forall_forall in FL, NB. destruct (FL _ I) as (_ & _ & SH). destruct (word_kind _ _ Hs SH) as [K|K]; auto. now apply NB in I. }
  destruct (well_formed_file_tree debug (sink_tokens l) l cs LX PL NE (eq_sym RW) W D) as (r & A & B & C). exists r. unfold parse_text. rewrite TK. rewrite SR in *. auto.
Qed.

(** The grammar is unambiguous: a file has one tree. *)
Theorem grammar_unambiguous : forall l cs cs', no_eof_in l -> words_are_names l -> spells_file l cs -> spells_file l cs' -> cs = cs'.
Proof.
  intros l cs cs' N W D D'. destruct (well_formed_file_parses true l cs N W D) as (p & E & _ & R). destruct (well_formed_file_parses true l cs' N W D') as (p' & E' & _ & R').
  rewrite E in E'. injection E' as <-. rewrite R in R'. injection R' as R'. now apply app_inv_tail in R'.
Qed.

(** * An example *)
Definition ex_module : string :=
"module 0x1::m {
    use std::vector;
    const MAX: u64 = 10;
    struct S<T> has key, store { x: u64, y: vector<T> }
    /// either
    enum E { A, B(u64), C { f: bool } }
    public fun f<T>(a: &mut S<T>, e: E): u64 acquires S {
        let b = a.x + n * 2;
        while (b < MAX) { b = b + 1; }; // count
        if (b == 7) return b;
        vector::push_back(&mut a.y, b);
        match (e) { E::B(k) => k, _ => b as u64 }
    }
}
".
Ltac v := vm_compute; reflexivity.
Ltac names := let s := fresh in let Hs := fresh in intros s Hs; cbn in Hs; repeat (destruct Hs as [<-|Hs]; [let H := fresh in intros H; vm_compute in H; discriminate H|]); destruct Hs.
Ltac never := let H := fresh in intros H; vm_compute in H; discriminate H.
Ltac not_kw := let H := fresh in let H2 := fresh in intros [H H2]; first [vm_compute in H; discriminate H | vm_compute in H2; discriminate H2].
Ltac idn := split; [v|names].
Ltac ord := intros _; split; [idn|split; [never|split; [names|split; [first [never | intros _; no_kind]|split; names]]]].
Ltac sd := match goal with |- ?g => tryif has_evar g then fail else idtac end; solve [
    match goal with |- K _ _ _ => v | |- ~ K _ _ _ => never | |- K _ _ _ -> _ => never | |- ~ among _ _ _ => no_kind | |- among _ _ _ => cbn; tauto
    | |- kw _ _ _ _ => split; v | |- ~ kw _ _ _ _ => not_kw | |- id _ _ _ => idn | |- head _ _ => never | |- op_at _ _ _ => apply op_atb_ok; v | |- power _ = _ => v
    | |- (?a <= ?b)%nat => tryif first [has_evar a | has_evar b] then fail else (vm_compute; lia) | |- In _ _ => cbn; tauto | |- _ = _ -> _ => discriminate | |- ~ blockish _ _ _ => intros [H|[[_ H]|[_ H]]]; [revert H; no_kind|vm_compute in H; discriminate H..] end
  | ord | intros _; split; [no_kind|split; first [never | intros _; no_kind]] | intros _; v | intros _; intros H; vm_compute in H; discriminate H | match goal with |- _ \/ _ => left; cbn; tauto end | intros _; cbn; tauto].
Definition ex_T : toks := Eval vm_compute in tokens_of (tokens ex_module).
Definition ex_X : list text := Eval vm_compute in texts_of (tokens ex_module).
Lemma ex_spells : exists cs, spells_file (tokens ex_module) cs.
Proof.
  eexists. unfold spells_file. change (tokens_of (tokens ex_module)) with ex_T. change (texts_of (tokens ex_module)) with ex_X. set (n := length ex_T). vm_compute in n. subst n.
    eapply ShapeSpec.file_cons. all: try sd. eapply ShapeSpec.top_module. all: try sd. eapply ShapeSpec.attrs_nil. all: try sd. eapply ShapeSpec.module_addr. all: try sd.
    eapply ShapeSpec.addr_num. all: try sd. eapply ShapeSpec.items_cons. all: try sd. eapply ShapeSpec.i_use. all: try sd. eapply ShapeSpec.attrs_nil. all: try sd.
    eapply ShapeSpec.us_plain. all: try sd. eapply ShapeSpec.path. all: try sd. eapply ShapeSpec.segs_more. all: try sd. eapply ShapeSpec.segs_one. all: try sd.
    eapply ShapeSpec.seg_name. all: try sd. eapply ShapeSpec.args_none. all: try sd. eapply ShapeSpec.seg_name. all: try sd. eapply ShapeSpec.args_none. all: try sd.
    eapply ShapeSpec.items_cons. all: try sd. eapply ShapeSpec.i_const. all: try sd. eapply ShapeSpec.attrs_nil. all: try sd. eapply ShapeSpec.ov_none. all: try sd.
    eapply ShapeSpec.t_path. all: try sd. eapply ShapeSpec.path. all: try sd. eapply ShapeSpec.segs_one. all: try sd. eapply ShapeSpec.seg_name. all: try sd.
    eapply ShapeSpec.args_no_type. all: try sd. eapply ShapeSpec.e_opnd. all: try sd. eapply ShapeSpec.o_prim. all: try sd. eapply ShapeSpec.pr_atom. all: try sd.
    eapply ShapeSpec.a_lit. all: try sd. eapply ShapeSpec.lit_tok with (k := INT_NUMBER). all: try sd. eapply ShapeSpec.items_cons. all: try sd.
    eapply ShapeSpec.i_struct. all: try sd. eapply ShapeSpec.attrs_nil. all: try sd. eapply ShapeSpec.ov_none. all: try sd. eapply ShapeSpec.tparams. all: try sd.
    eapply ShapeSpec.c_one. all: try sd. eapply ShapeSpec.tparam. all: try sd. eapply ShapeSpec.has. all: try sd. eapply ShapeSpec.ab_more. all: try sd.
    eapply ShapeSpec.ab_one. all: try sd. eapply ShapeSpec.c_more. all: try sd. eapply ShapeSpec.field. all: try sd. eapply ShapeSpec.t_path. all: try sd.
    eapply ShapeSpec.path. all: try sd. eapply ShapeSpec.segs_one. all: try sd. eapply ShapeSpec.seg_name. all: try sd. eapply ShapeSpec.args_no_type. all: try sd.
    eapply ShapeSpec.c_one. all: try sd. eapply ShapeSpec.field. all: try sd. eapply ShapeSpec.t_path. all: try sd. eapply ShapeSpec.path. all: try sd.
    eapply ShapeSpec.segs_one. all: try sd. eapply ShapeSpec.seg_name. all: try sd. eapply ShapeSpec.args_type. all: try sd. eapply ShapeSpec.c_one. all: try sd.
    eapply ShapeSpec.targ. all: try sd. eapply ShapeSpec.t_path. all: try sd. eapply ShapeSpec.path. all: try sd. eapply ShapeSpec.segs_one. all: try sd.
    eapply ShapeSpec.seg_name. all: try sd. eapply ShapeSpec.args_no_type. all: try sd. eapply ShapeSpec.hs_none. all: try sd. eapply ShapeSpec.items_cons. all: try sd.
    eapply ShapeSpec.i_enum. all: try sd. eapply ShapeSpec.attrs_nil. all: try sd. eapply ShapeSpec.ov_none. all: try sd. eapply ShapeSpec.tparams_none. all: try sd.
    eapply ShapeSpec.has_none. all: try sd. eapply ShapeSpec.vars_comma. all: try sd. eapply ShapeSpec.var_unit. all: try sd. eapply ShapeSpec.attrs_nil. all: try sd.
    eapply ShapeSpec.vars_comma. all: try sd. eapply ShapeSpec.var_tuple. all: try sd. eapply ShapeSpec.attrs_nil. all: try sd. eapply ShapeSpec.c_one. all: try sd.
    eapply ShapeSpec.tfield. all: try sd. eapply ShapeSpec.t_path. all: try sd. eapply ShapeSpec.path. all: try sd. eapply ShapeSpec.segs_one. all: try sd.
    eapply ShapeSpec.seg_name. all: try sd. eapply ShapeSpec.args_no_type. all: try sd. eapply ShapeSpec.vars_last. all: try sd. eapply ShapeSpec.var_named. all: try sd.
    eapply ShapeSpec.attrs_nil. all: try sd. eapply ShapeSpec.c_one. all: try sd. eapply ShapeSpec.field. all: try sd. eapply ShapeSpec.t_path. all: try sd.
    eapply ShapeSpec.path. all: try sd. eapply ShapeSpec.segs_one. all: try sd. eapply ShapeSpec.seg_name. all: try sd. eapply ShapeSpec.args_no_type. all: try sd.
    eapply ShapeSpec.hs_none. all: try sd. eapply ShapeSpec.items_cons. all: try sd. eapply ShapeSpec.i_fun. all: try sd. eapply ShapeSpec.attrs_nil. all: try sd.
    eapply ShapeSpec.ov_some. all: try sd. eapply ShapeSpec.vis_public. all: try sd. eapply ShapeSpec.mods_nil. all: try sd. eapply ShapeSpec.tparams. all: try sd.
    eapply ShapeSpec.c_one. all: try sd. eapply ShapeSpec.tparam. all: try sd. eapply ShapeSpec.params. all: try sd. eapply ShapeSpec.c_more. all: try sd.
    eapply ShapeSpec.param_id. all: try sd. eapply ShapeSpec.t_mut. all: try sd. eapply ShapeSpec.t_path. all: try sd. eapply ShapeSpec.path. all: try sd.
    eapply ShapeSpec.segs_one. all: try sd. eapply ShapeSpec.seg_name. all: try sd. eapply ShapeSpec.args_type. all: try sd. eapply ShapeSpec.c_one. all: try sd.
    eapply ShapeSpec.targ. all: try sd. eapply ShapeSpec.t_path. all: try sd. eapply ShapeSpec.path. all: try sd. eapply ShapeSpec.segs_one. all: try sd.
    eapply ShapeSpec.seg_name. all: try sd. eapply ShapeSpec.args_no_type. all: try sd. eapply ShapeSpec.c_one. all: try sd. eapply ShapeSpec.param_id. all: try sd.
    eapply ShapeSpec.t_path. all: try sd. eapply ShapeSpec.path. all: try sd. eapply ShapeSpec.segs_one. all: try sd. eapply ShapeSpec.seg_name. all: try sd.
    eapply ShapeSpec.args_no_type. all: try sd. eapply ShapeSpec.ret_some. all: try sd. eapply ShapeSpec.t_path. all: try sd. eapply ShapeSpec.path. all: try sd.
    eapply ShapeSpec.segs_one. all: try sd. eapply ShapeSpec.seg_name. all: try sd. eapply ShapeSpec.args_no_type. all: try sd. eapply ShapeSpec.acq_some. all: try sd.
    eapply ShapeSpec.pts_one. all: try sd. eapply ShapeSpec.path. all: try sd. eapply ShapeSpec.segs_one. all: try sd. eapply ShapeSpec.seg_name. all: try sd.
    eapply ShapeSpec.args_no_type. all: try sd. eapply ShapeSpec.fb_block. all: try sd. eapply ShapeSpec.block. all: try sd. eapply ShapeSpec.stmts_cons. all: try sd.
    eapply ShapeSpec.s_let_init. all: try sd. eapply ShapeSpec.p_ident. all: try sd. eapply ShapeSpec.e_bin with (k := PLUS) (q := 11). all: try sd.
    eapply ShapeSpec.e_opnd. all: try sd. eapply ShapeSpec.o_prim. all: try sd. eapply ShapeSpec.pr_field. all: try sd. eapply ShapeSpec.pr_atom. all: try sd.
    eapply ShapeSpec.a_path. all: try sd. eapply ShapeSpec.path. all: try sd. eapply ShapeSpec.segs_one. all: try sd. eapply ShapeSpec.seg_name. all: try sd.
    eapply ShapeSpec.args_no_expr. all: try sd. eapply ShapeSpec.e_bin with (k := STAR) (q := 12). all: try sd. eapply ShapeSpec.e_opnd. all: try sd.
    eapply ShapeSpec.o_prim. all: try sd. eapply ShapeSpec.pr_atom. all: try sd. eapply ShapeSpec.a_path. all: try sd. eapply ShapeSpec.path. all: try sd.
    eapply ShapeSpec.segs_one. all: try sd. eapply ShapeSpec.seg_name. all: try sd. eapply ShapeSpec.args_no_expr. all: try sd. eapply ShapeSpec.e_opnd. all: try sd.
    eapply ShapeSpec.o_prim. all: try sd. eapply ShapeSpec.pr_atom. all: try sd. eapply ShapeSpec.a_lit. all: try sd. eapply ShapeSpec.lit_tok with (k := INT_NUMBER). all: try sd.
    eapply ShapeSpec.stmts_cons. all: try sd. eapply ShapeSpec.s_block_semi. all: try sd. eapply ShapeSpec.a_loop. all: try sd. eapply ShapeSpec.l_while. all: try sd.
    eapply ShapeSpec.cond. all: try sd. eapply ShapeSpec.e_bin with (k := L_ANGLE) (q := 6). all: try sd. eapply ShapeSpec.e_opnd. all: try sd.
    eapply ShapeSpec.o_prim. all: try sd. eapply ShapeSpec.pr_atom. all: try sd. eapply ShapeSpec.a_path. all: try sd. eapply ShapeSpec.path. all: try sd.
    eapply ShapeSpec.segs_one. all: try sd. eapply ShapeSpec.seg_name. all: try sd. eapply ShapeSpec.args_no_expr. all: try sd. eapply ShapeSpec.e_opnd. all: try sd.
    eapply ShapeSpec.o_prim. all: try sd. eapply ShapeSpec.pr_atom. all: try sd. eapply ShapeSpec.a_path. all: try sd. eapply ShapeSpec.path. all: try sd.
    eapply ShapeSpec.segs_one. all: try sd. eapply ShapeSpec.seg_name. all: try sd. eapply ShapeSpec.args_no_expr. all: try sd. eapply ShapeSpec.br_block. all: try sd.
    eapply ShapeSpec.block. all: try sd. eapply ShapeSpec.stmts_cons. all: try sd. eapply ShapeSpec.s_expr. all: try sd.
    eapply ShapeSpec.e_bin with (k := EQ) (q := 1). all: try sd. eapply ShapeSpec.e_opnd. all: try sd. eapply ShapeSpec.o_prim. all: try sd. eapply ShapeSpec.pr_atom. all: try sd.
    eapply ShapeSpec.a_path. all: try sd. eapply ShapeSpec.path. all: try sd. eapply ShapeSpec.segs_one. all: try sd. eapply ShapeSpec.seg_name. all: try sd.
    eapply ShapeSpec.args_no_expr. all: try sd. eapply ShapeSpec.e_bin with (k := PLUS) (q := 11). all: try sd. eapply ShapeSpec.e_opnd. all: try sd.
    eapply ShapeSpec.o_prim. all: try sd. eapply ShapeSpec.pr_atom. all: try sd. eapply ShapeSpec.a_path. all: try sd. eapply ShapeSpec.path. all: try sd.
    eapply ShapeSpec.segs_one. all: try sd. eapply ShapeSpec.seg_name. all: try sd. eapply ShapeSpec.args_no_expr. all: try sd. eapply ShapeSpec.e_opnd. all: try sd.
    eapply ShapeSpec.o_prim. all: try sd. eapply ShapeSpec.pr_atom. all: try sd. eapply ShapeSpec.a_lit. all: try sd. eapply ShapeSpec.lit_tok with (k := INT_NUMBER). all: try sd.
    eapply ShapeSpec.stmts_nil. all: try sd. eapply ShapeSpec.stmts_cons. all: try sd. eapply ShapeSpec.s_block_semi. all: try sd. eapply ShapeSpec.a_if. all: try sd.
    eapply ShapeSpec.cond. all: try sd. eapply ShapeSpec.e_bin with (k := EQ_EQ) (q := 6). all: try sd. eapply ShapeSpec.e_opnd. all: try sd. eapply ShapeSpec.o_prim. all: try sd.
    eapply ShapeSpec.pr_atom. all: try sd. eapply ShapeSpec.a_path. all: try sd. eapply ShapeSpec.path. all: try sd. eapply ShapeSpec.segs_one. all: try sd.
    eapply ShapeSpec.seg_name. all: try sd. eapply ShapeSpec.args_no_expr. all: try sd. eapply ShapeSpec.e_opnd. all: try sd. eapply ShapeSpec.o_prim. all: try sd.
    eapply ShapeSpec.pr_atom. all: try sd. eapply ShapeSpec.a_lit. all: try sd. eapply ShapeSpec.lit_tok with (k := INT_NUMBER). all: try sd.
    eapply ShapeSpec.br_inline. all: try sd. eapply ShapeSpec.e_opnd. all: try sd. eapply ShapeSpec.o_greedy. all: try sd. eapply ShapeSpec.a_return. all: try sd.
    eapply ShapeSpec.me_some. all: try sd. eapply ShapeSpec.e_opnd. all: try sd. eapply ShapeSpec.o_prim. all: try sd. eapply ShapeSpec.pr_atom. all: try sd.
    eapply ShapeSpec.a_path. all: try sd. eapply ShapeSpec.path. all: try sd. eapply ShapeSpec.segs_one. all: try sd. eapply ShapeSpec.seg_name. all: try sd.
    eapply ShapeSpec.args_no_expr. all: try sd. eapply ShapeSpec.stmts_cons. all: try sd. eapply ShapeSpec.s_expr. all: try sd. eapply ShapeSpec.e_opnd. all: try sd.
    eapply ShapeSpec.o_prim. all: try sd. eapply ShapeSpec.pr_call. all: try sd. eapply ShapeSpec.pr_atom. all: try sd. eapply ShapeSpec.a_path. all: try sd.
    eapply ShapeSpec.path. all: try sd. eapply ShapeSpec.segs_more. all: try sd. eapply ShapeSpec.segs_one. all: try sd. eapply ShapeSpec.seg_name. all: try sd.
    eapply ShapeSpec.args_no_expr. all: try sd. eapply ShapeSpec.seg_name. all: try sd. eapply ShapeSpec.args_no_expr. all: try sd. eapply ShapeSpec.args. all: try sd.
    eapply ShapeSpec.c_more. all: try sd. eapply ShapeSpec.arg. all: try sd. eapply ShapeSpec.e_opnd. all: try sd. eapply ShapeSpec.o_borrow_mut. all: try sd.
    eapply ShapeSpec.e_opnd. all: try sd. eapply ShapeSpec.o_prim. all: try sd. eapply ShapeSpec.pr_field. all: try sd. eapply ShapeSpec.pr_atom. all: try sd.
    eapply ShapeSpec.a_path. all: try sd. eapply ShapeSpec.path. all: try sd. eapply ShapeSpec.segs_one. all: try sd. eapply ShapeSpec.seg_name. all: try sd.
    eapply ShapeSpec.args_no_expr. all: try sd. eapply ShapeSpec.c_one. all: try sd. eapply ShapeSpec.arg. all: try sd. eapply ShapeSpec.e_opnd. all: try sd.
    eapply ShapeSpec.o_prim. all: try sd. eapply ShapeSpec.pr_atom. all: try sd. eapply ShapeSpec.a_path. all: try sd. eapply ShapeSpec.path. all: try sd.
    eapply ShapeSpec.segs_one. all: try sd. eapply ShapeSpec.seg_name. all: try sd. eapply ShapeSpec.args_no_expr. all: try sd. eapply ShapeSpec.stmts_cons. all: try sd.
    eapply ShapeSpec.s_block_last. all: try sd. eapply ShapeSpec.a_match. all: try sd. eapply ShapeSpec.e_opnd. all: try sd. eapply ShapeSpec.o_prim. all: try sd.
    eapply ShapeSpec.pr_atom. all: try sd. eapply ShapeSpec.a_path. all: try sd. eapply ShapeSpec.path. all: try sd. eapply ShapeSpec.segs_one. all: try sd.
    eapply ShapeSpec.seg_name. all: try sd. eapply ShapeSpec.args_no_expr. all: try sd. eapply ShapeSpec.arms_cons. all: try sd. eapply ShapeSpec.arm. all: try sd.
    eapply ShapeSpec.p_tuple_struct. all: try sd. eapply ShapeSpec.path. all: try sd. eapply ShapeSpec.segs_more. all: try sd. eapply ShapeSpec.segs_one. all: try sd.
    eapply ShapeSpec.seg_name. all: try sd. eapply ShapeSpec.args_no_type. all: try sd. eapply ShapeSpec.seg_name. all: try sd. eapply ShapeSpec.args_no_type. all: try sd.
    eapply ShapeSpec.c_one. all: try sd. eapply ShapeSpec.p_ident. all: try sd. eapply ShapeSpec.guard_none. all: try sd. eapply ShapeSpec.ab_expr. all: try sd.
    eapply ShapeSpec.e_opnd. all: try sd. eapply ShapeSpec.o_prim. all: try sd. eapply ShapeSpec.pr_atom. all: try sd. eapply ShapeSpec.a_path. all: try sd.
    eapply ShapeSpec.path. all: try sd. eapply ShapeSpec.segs_one. all: try sd. eapply ShapeSpec.seg_name. all: try sd. eapply ShapeSpec.args_no_expr. all: try sd.
    eapply ShapeSpec.arms_cons. all: try sd. eapply ShapeSpec.arm. all: try sd. eapply ShapeSpec.p_wild. all: try sd. eapply ShapeSpec.guard_none. all: try sd.
    eapply ShapeSpec.ab_last. all: try sd. eapply ShapeSpec.e_cast. all: try sd. eapply ShapeSpec.e_opnd. all: try sd. eapply ShapeSpec.o_prim. all: try sd.
    eapply ShapeSpec.pr_atom. all: try sd. eapply ShapeSpec.a_path. all: try sd. eapply ShapeSpec.path. all: try sd. eapply ShapeSpec.segs_one. all: try sd.
    eapply ShapeSpec.seg_name. all: try sd. eapply ShapeSpec.args_no_expr. all: try sd. eapply ShapeSpec.t_path. all: try sd. eapply ShapeSpec.path. all: try sd.
    eapply ShapeSpec.segs_one. all: try sd. eapply ShapeSpec.seg_name. all: try sd. eapply ShapeSpec.args_no_type. all: try sd. eapply ShapeSpec.arms_nil. all: try sd.
    eapply ShapeSpec.stmts_nil. all: try sd. eapply ShapeSpec.items_nil. all: try sd. eapply ShapeSpec.file_nil. all: try sd.
Qed.
Lemma no_block_comment : forall t, contains (str "/*") t = false -> ascii_comments t.
Proof.
  intros t H a b c E _. exfalso. subst t. induction a as [|x a IH]; cbn [app contains] in H; apply orb_false_iff in H as [H1 H2]; [discriminate H1|]. now apply IH.
Qed.
Lemma none_of_kind : forall k (l : list (raw_token * text)), forallb (fun x => negb (kind_eqb (rt_kind (fst x)) k)) l = true -> Forall (fun x => rt_kind (fst x) <> k) l.
Proof. intros k l H. rewrite forallb_forall in H. apply Forall_forall. intros x I E. specialize (H x I). cbn beta in H. destruct (kind_eqb_reflect (rt_kind (fst x)) k); [discriminate|congruence]. Qed.
Lemma ex_no_eof : no_eof_in (tokens ex_module).
Proof. unfold no_eof_in, no_eof. rewrite Forall_map. apply none_of_kind. vm_compute. reflexivity. Qed.
Lemma names_check : forall l, forallb (fun x : raw_token * text => kind_eqb (rt_kind (fst x)) IDENT || forallb (fun s => negb (text_eqb (snd x) (str s))) bare_words) l = true -> words_are_names l.
Proof.
  intros l H. rewrite forallb_forall in H. intros t x s I Hs E. specialize (H _ I). cbn [fst snd] in H. destruct (kind_eqb_reflect (rt_kind t) IDENT) as [|_]; auto. cbn [orb] in H. rewrite forallb_forall in H. specialize (H s Hs). subst x.
  unfold text_eqb in H. destruct (text_eq_dec (str s) (str s)); [discriminate|congruence].
Qed.
Lemma ex_names : words_are_names (tokens ex_module).
Proof. apply names_check. vm_compute. reflexivity. Qed.
Example well_formed_file_example : no_eof_in (tokens ex_module) /\ words_are_names (tokens ex_module) /\ exists cs, spells_file (tokens ex_module) cs.
Proof. split; [exact ex_no_eof|]. split; [exact ex_names|exact ex_spells]. Qed.
Example well_formed_text_example : sensible LexerProps.one /\ ascii_comments (str ex_module) /\ tokenize LexerProps.one (str ex_module) = Some (Ok (tokens ex_module)) /\
  Forall (fun x => rt_kind (fst x) <> BAD_CHARACTER) (tokens ex_module) /\ (exists cs, spells_file (tokens ex_module) cs) /\
  exists t, parse_text LexerProps.one true (str ex_module) = PTree t [] /\ tree_text t = str ex_module.
Proof.
  split; [apply one_sensible|]. split; [apply no_block_comment; vm_compute; reflexivity|]. split; [vm_compute; reflexivity|].
  split; [apply none_of_kind; vm_compute; reflexivity|]. split; [exact ex_spells|].
  eexists. split; vm_compute; reflexivity.
Qed.

(** * What the grammar leaves out *)
(** Valid declarations that the parser rejects: a struct whose abilities are followed by a semicolon (adt.rs:19-40 asks for a body after
    the abilities), a function type among the parameters of a function type (lists stop at an outer '|'), a parameter called enum (a word
    of the recovery set), an index directly after a block. *)
Definition rejected : list string :=
  ["module 0x1::m { struct S has key; }"; "module 0x1::m { fun f(g: | |u64| u64 | u64) {} }"; "module 0x1::m { fun f(enum: u64) {} }"; "module 0x1::m { fun f() { { x }[0]; } }"]%string.
Theorem valid_accepted_refuted : forall s, In s rejected -> exists t errs, parse_text LexerProps.one false (str s) = PTree t errs /\ errs <> [].
Proof. intros s H. repeat (destruct H as [<-|H]; [do 2 eexists; split; [vm_compute; reflexivity|discriminate]|]). destruct H. Qed.
(** The same without what is wrong is read. *)
Example rejected_neighbours : forall s, In s ["module 0x1::m { struct S; }"; "module 0x1::m { fun f(g: |(|u64| u64)| u64) {} }"; "module 0x1::m { fun f(enun: u64) {} }"; "module 0x1::m { fun f() { ({ x })[0]; } }"]%string ->
  exists t, parse_text LexerProps.one false (str s) = PTree t [].
Proof. intros s H. repeat (destruct H as [<-|H]; [eexists; vm_compute; reflexivity|]). destruct H. Qed.
Definition var_ : list call := N PATH_EXPR (N PATH (N PATH_SEGMENT (N NAME_REF [tk IDENT]))).
Definition type_ : list call := N PATH_TYPE (N PATH (N PATH_SEGMENT (N NAME_REF [tk IDENT]))).
(** Misread without an error: both bars of [x is A || y] separate types; [return -x] subtracts from a return; type arguments that begin
    with a parenthesis are comparisons. *)
Theorem misread_refuted :
  tree_of "x is A || y" = Some (6, N SOURCE_FILE (N IS_EXPR (var_ ++ tk IS_KW :: type_ ++ tk PIPE :: tk PIPE :: type_))) /\
  tree_of "return -x" = Some (3, N SOURCE_FILE (N BIN_EXPR (N RETURN_EXPR [tk RETURN_KW] ++ tk MINUS :: var_))) /\
  tree_of "f<(A, B)>(x)" = Some (11, N SOURCE_FILE (N BIN_EXPR (N BIN_EXPR (var_ ++ tk L_ANGLE :: N TUPLE_EXPR (tk L_PAREN :: var_ ++ tk COMMA :: var_ ++ [tk R_PAREN])) ++ tk R_ANGLE :: N PAREN_EXPR (tk L_PAREN :: var_ ++ [tk R_PAREN])))).
Proof. split; [|split]; vm_compute; reflexivity. Qed.

Print Assumptions well_formed_file_parses.
Print Assumptions well_formed_file_tree.
Print Assumptions well_formed_text_tree_partial.
Print Assumptions grammar_unambiguous.
Print Assumptions valid_accepted_refuted.
Print Assumptions misread_refuted.
