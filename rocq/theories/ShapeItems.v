(** Attributes, uses, items and files: what the parser does on them. *)
From Coq Require Import String.
From Verif Require Import Base SyntaxKind ParserModel GrammarBase AddressModel TreeSinkModel TreeSinkSpec TreeSinkProps ParserSpec ParserProofs ParserProofs2 ParserProps GrammarDisc PrecSpec PrecRun PrecBasics PrecProofs ShapeSpec ShapeBasics ShapeFacts GrammarModel ShapeDefs ShapeTypes ShapeOps ShapeExprs.
Close Scope string_scope.
Close Scope N_scope.
Open Scope nat_scope.
Open Scope gram_scope.
Arguments op_seen : simpl never.

Definition field_step (R : recs) (_ : unit) : M (bool * unit) :=
  named_field R ;; (IF at_ R_CURLY THEN skip ELSE (expect COMMA ;; skip)) ;; ret (true, tt).
Definition vis_step (_ : unit) : M (bool * unit) := IF visibility_modifier THEN ret (true, tt) ELSE ret (false, tt).
Ltac nm := match goal with |- rd _ _ _ (mbind (reset_rs _) _) _ _ _ => eapply r_then; [apply r_reset|] | |- rd _ _ _ (mbind (name_or_recover _) _) _ _ _ => eapply r_seq; [eapply (r_name_or (X := _)); [texts|kn|apply away_ident; [envs|split; kn]]|]; cbv iota | |- rd _ _ _ name _ _ _ => apply r_name; [envs|split; kn] end.
Ltac hasr := match goal with H : kind_at ?T ?j = _ |- _ -> In (kind_at ?T ?j) (rs_kinds (e_rs (under _ _))) => intros _; rewrite H; cbn; rewrite ?in_app_iff; cbn; tauto end.
Ltac wide := match goal with H : In (kind_at ?T ?i) ?l |- In (kind_at ?T ?i) ?l' => apply (in_wider _ l l' H); vm_compute; reflexivity end.
Ltac side ::= first [envs | lia | assumption | inc | comma | ends | wide | hasr].
Ltac go ::= repeat first [stp | wrs | nm | ih].

Section Cases.
Context {T : toks} {X : list text} {G : good T X}.
Notation der := (ShapeSpec.der T X).
Notation P := (ShapeDefs.P T X).
Notation K := (ShapeSpec.K T).
Notation among := (ShapeSpec.among T).
Notation id := (ShapeSpec.id T X).
Notation kw := (ShapeSpec.kw T X).
Notation head := (ShapeSpec.head T).
Notation ordinary := (ShapeSpec.ordinary T X).
Notation ends_at := (ShapeSpec.ends_at T X).
Notation blockish := (ShapeSpec.blockish T X).
Notation ok := (ShapeBasics.ok X).


(** * Attributes *)
Lemma case_attrs_nil : forall i, ~ K i POUND -> P Attrs i [] i.
Proof. intros i H n e O L fuel last F. destruct fuel as [|fuel]; [lia|]. cbn [loop_]. prep. eapply r_eq; [unfold attr_turn; stps|fin|fin]. Qed.
Lemma case_attr : forall i l j, K i POUND -> K (S i) L_BRACK -> der (Comma AItem R_BRACK) (S (S i)) l j -> P (Comma AItem R_BRACK) (S (S i)) l j -> P Attr i (N ATTR (tk POUND :: tk L_BRACK :: l ++ [tk R_BRACK])) (S j).
Proof. case (unfold GrammarModel.attr, attr_item_list, attr_item). Qed.
Lemma case_attrs_cons : forall i a j l k, der Attr i a j -> P Attr i a j -> der Attrs j l k -> P Attrs j l k -> P Attrs i (a ++ l) k.
Proof.
  intros i a j l k D H D2 H2 n e O L fuel last F. facts. open_facts. prep. solo. destruct fuel as [|fuel]; [lia|]. cbn [loop_]. eapply (r_bind e _ _ j _ (fun x => exists c, x = inl (Some c))).
  - unfold attr_turn. stp. eapply r_eq; [eapply r_bind; [apply H; [envs|lia]|cbn beta; intros c _; apply r_ret; eauto]|fin|fin].
  - cbn beta. intros x (c & ->). cbv iota. apply H2; [envs|lia|lia].
Qed.
Lemma case_ai_plain : forall i p j, der (Path MNone) i p j -> P (Path MNone) i p j -> ~ among j [EQ; L_PAREN] -> P AItem i (N ATTR_ITEM p) j.
Proof. intros i p j D H A n e O L C. unroll n. revert C. case (change (r_attr_item (run (S n))) with (attr_item_body (run n)); unfold attr_item_body, GrammarModel.path). Qed.
Lemma case_ai_value : forall i p j t c k, der (Path MNone) i p j -> P (Path MNone) i p j -> K j EQ -> der (Ex 1 t) (S j) c k -> P (Ex 1 t) (S j) c k -> among k [COMMA; R_BRACK; R_PAREN] -> P AItem i (N ATTR_ITEM (p ++ N INITIALIZER (tk EQ :: c))) k.
Proof. intros i p j t c k D H K1 D2 H2 A n e O L C. unroll n. revert C. case (change (r_attr_item (run (S n))) with (attr_item_body (run n)); unfold attr_item_body, GrammarModel.path, initializer_expr). Qed.
Lemma case_ai_list : forall i p j l k, der (Path MNone) i p j -> P (Path MNone) i p j -> K j L_PAREN -> der (Comma AItem R_PAREN) (S j) l k -> P (Comma AItem R_PAREN) (S j) l k -> P AItem i (N ATTR_ITEM (p ++ N ATTR_ITEM_LIST (tk L_PAREN :: l ++ [tk R_PAREN]))) (S k).
Proof. intros i p j l k D H K1 D2 H2 n e O L C. unroll n. revert C. case (change (r_attr_item (run (S n))) with (attr_item_body (run n)); unfold attr_item_body, GrammarModel.path, attr_item_list, attr_item). Qed.
(** * Uses *)
Ltac pst := apply r_ask with (b := true); [apply path_start; [eassumption|wide]|cbv iota].
Ltac speck n b := enter; eapply r_eq; [change (r_use_speck (run (S n)) b) with (use_speck_body (run n) b); unfold use_speck_body, GrammarModel.path, use_alias, use_group, use_speck; pst; go|fin|fin].
Lemma case_us_plain : forall i p j, head i -> der (Path MNone) i p j -> P (Path MNone) i p j -> ~ among j [AS_KW; COLON_COLON] -> P USpeck i (N USE_SPECK p) j.
Proof. intros i p j HD D H A n e b O L. unroll n. speck n b. Qed.
Lemma case_us_alias : forall i p j, head i -> der (Path MNone) i p j -> P (Path MNone) i p j -> K j AS_KW -> id (S j) -> P USpeck i (N USE_SPECK (p ++ N USE_ALIAS (tk AS_KW :: NAME_))) (S (S j)).
Proof. intros i p j HD D H K1 A n e b O L. unroll n. speck n b. Qed.
Lemma case_us_group : forall i p j l k, head i -> der (Path MNone) i p j -> P (Path MNone) i p j -> K j COLON_COLON -> K (S j) L_CURLY -> der (Comma USpeck R_CURLY) (S (S j)) l k -> P (Comma USpeck R_CURLY) (S (S j)) l k -> P USpeck i (N USE_SPECK (p ++ tk COLON_COLON :: N USE_GROUP (tk L_CURLY :: l ++ [tk R_CURLY]))) (S k).
Proof. intros i p j l k HD D H K1 K2 D2 H2 n e b O L. unroll n. speck n b. Qed.
(** * Structs and enums *)
Lemma case_field : forall i t j, id i -> K (S i) COLON -> der (Type_ true) (S (S i)) t j -> P (Type_ true) (S (S i)) t j -> P Field i (N NAMED_FIELD (NAME_ ++ tk COLON :: t)) j.
Proof. case (unfold named_field, type_, type_or_recover). Qed.
Lemma case_tfield : forall i t j, der (Type_ true) i t j -> P (Type_ true) i t j -> P TField i (N TUPLE_FIELD t) j.
Proof. case (unfold tuple_field, type_, type_or_recover). Qed.
Lemma case_has_none : forall i, ~ kw i "has" -> P Has i [] i.
Proof. case (unfold opt_abilities_list). Qed.
Lemma case_has : forall i a j, kw i "has" -> der (Abils COMMA) (S i) a j -> P (Abils COMMA) (S i) a j -> among j [L_CURLY; L_PAREN; SEMICOLON] -> P Has i (N ABILITY_LIST (tk HAS_KW :: a)) j.
Proof. enter. eapply r_eq. { unfold opt_abilities_list, abilities_list. go. apply (r_abils (under item_start_rec_set e) _ _ _ _ H0); [cbn; tauto|envs|cbn; apply in_or_app; left; apply H4; split; assumption|oth]. all: stps. } fin. fin. Qed.
Lemma case_hs_none : forall i, ~ kw i "has" -> P HasSemi i [] i.
Proof. case (unfold opt_abilities_list_with_semicolon, opt_abilities_list). Qed.
Lemma case_hs_some : forall i a j, kw i "has" -> der (Abils COMMA) (S i) a j -> P (Abils COMMA) (S i) a j -> K j SEMICOLON -> P HasSemi i (N ABILITY_LIST (tk HAS_KW :: a) ++ [tk SEMICOLON]) (S j).
Proof. enter. eapply r_eq. { unfold opt_abilities_list_with_semicolon, opt_abilities_list, abilities_list. stp. { go. apply (r_abils (under item_start_rec_set (under (rs_of [SEMICOLON]) e)) _ _ _ _ H0); [cbn; tauto|envs|cbn; rewrite H2, !in_app_iff; cbn; tauto|congruence]. all: stps. } stps. } fin. fin. Qed.
(** the attributes in front *)
Lemma r_attrs : forall i a j, P Attrs i a j -> forall n e, ok IK e -> 3 * (j - i) < n -> rd T e i (attrs (run n)) j a any.
Proof. intros i a j H n e O L. unfold attrs. fold (attr_turn (run n)). apply y_loop. apply H; [exact O|lia|lia]. Qed.
Ltac at_ := match goal with H : P Attrs ?i _ _ |- rd _ _ ?i (mbind (attrs _) _) _ _ _ => eapply r_then; [apply (r_attrs _ _ _ H); [envs|lia]|] end.
Lemma r_named : forall n e j l k, ok (TK true) e -> K j L_CURLY -> der (Comma Field R_CURLY) (S j) l k -> P (Comma Field R_CURLY) (S j) l k -> 3 * (S k - j) < n ->
  rd T e j (named_field_list (run n)) (S k) (N NAMED_FIELD_LIST (tk L_CURLY :: l ++ [tk R_CURLY])) any.
Proof.
  intros n e j l k O KL D H L. facts. open_facts. prep. eapply r_eq. { unfold named_field_list. fold (field_step (run n)). stps. eapply r_then; [elements H (fun _ : unit => True) (fun _ : unit => True)|].
    - exists tt. split; auto. unfold field_step. eapply r_eq; [ih; stps|fin|fin].
    - exists true, tt. split; auto. unfold field_step. eapply r_eq; [ih; stps|fin|fin].
    - stps. }
  fin. fin.
Qed.
Lemma r_tuple : forall n e j l k, ok (TK true) e -> K j L_PAREN -> der (Comma TField R_PAREN) (S j) l k -> P (Comma TField R_PAREN) (S j) l k -> 3 * (S k - j) < n ->
  rd T e j (tuple_field_list (run n)) (S k) (N TUPLE_FIELD_LIST (tk L_PAREN :: l ++ [tk R_PAREN])) any.
Proof. intros n e j l k O KL D H L. facts. open_facts. prep. eapply r_eq. { unfold tuple_field_list. fold (tuple_field (run n)). go. } fin. fin. Qed.
(** enum variants *)
Lemma case_vars_end : forall i, K i R_CURLY -> P Vars i [] i.
Proof. enter. apply it_stop. rewrite H. cbn. tauto. Qed.
Lemma vars_head : forall j l k, der Vars j l k -> In (kind_at T j) [R_CURLY; POUND; IDENT].
Proof. intros j l k H. inversion H; subst; facts; open_facts; prep; try (left; symmetry; assumption); right; wide. Qed.
Lemma case_vars_last : forall c i v j, der (Variant c) i v j -> P (Variant c) i v j -> K j R_CURLY -> P Vars i v j.
Proof. enter. rewrite <- (app_nil_r v). eapply it_go; [nin|unfold variant_step; eapply r_eq; [go|fin|fin]|lia|lia|right; rewrite H1; cbn; tauto|apply it_stop; rewrite H1; cbn; tauto]. Qed.
Lemma case_vars_comma : forall c i v j l k, der (Variant c) i v j -> P (Variant c) i v j -> K j COMMA -> der Vars (S j) l k -> P Vars (S j) l k -> P Vars i (v ++ tk COMMA :: l) k.
Proof. enter. pose proof (vars_head _ _ _ H2) as A. replace (v ++ tk COMMA :: l) with ((v ++ [tk COMMA]) ++ l) by (rewrite <- app_assoc; reflexivity). eapply it_go; [nin|unfold variant_step; eapply r_eq; [ih; stps; destruct c; stps|fin|fin]|lia|apply next_at; congruence|eapply nrs_inner; eassumption|apply H3; [assumption|lia]]. Qed.
Lemma case_vars_next : forall i v j l k, der (Variant true) i v j -> P (Variant true) i v j -> ~ among j [COMMA; R_CURLY] -> der Vars j l k -> P Vars j l k -> P Vars i (v ++ l) k.
Proof. enter. pose proof (vars_head _ _ _ H2) as A. eapply it_go; [nin|unfold variant_step; eapply r_eq; [go|fin|fin]|lia|lia|eapply nrs_inner; eassumption|apply H3; [assumption|lia]]. Qed.
Lemma case_var_unit : forall i a j, der Attrs i a j -> P Attrs i a j -> id j -> ~ among (S j) [L_CURLY; L_PAREN] -> P (Variant false) i (N VARIANT (a ++ NAME_)) (S j).
Proof. enter. eapply r_eq. { unfold enum_variant. stp. { at_. go. } all: go. } fin. fin. Qed.
Lemma case_var_tuple : forall i a j l k, der Attrs i a j -> P Attrs i a j -> id j -> K (S j) L_PAREN -> der (Comma TField R_PAREN) (S (S j)) l k -> P (Comma TField R_PAREN) (S (S j)) l k -> P (Variant false) i (N VARIANT (a ++ NAME_ ++ N TUPLE_FIELD_LIST (tk L_PAREN :: l ++ [tk R_PAREN]))) (S k).
Proof. enter. eapply r_eq. { unfold enum_variant. stp. { at_. go. eapply r_then; [eapply r_tuple; [side|eassumption|eassumption|eassumption|lia]|]. stps. } all: go. } fin. fin. Qed.
Lemma case_var_named : forall i a j l k, der Attrs i a j -> P Attrs i a j -> id j -> K (S j) L_CURLY -> der (Comma Field R_CURLY) (S (S j)) l k -> P (Comma Field R_CURLY) (S (S j)) l k -> P (Variant true) i (N VARIANT (a ++ NAME_ ++ N NAMED_FIELD_LIST (tk L_CURLY :: l ++ [tk R_CURLY]))) (S k).
Proof. enter. eapply r_eq. { unfold enum_variant. stp. { at_. go. eapply r_then; [eapply r_named; [side|eassumption|eassumption|eassumption|lia]|]. stps. } all: go. } fin. fin. Qed.
(** * Functions *)
Lemma case_vis_public : forall i, K i PUBLIC_KW -> ~ K (S i) L_PAREN -> P Vis i (N VISIBILITY_MODIFIER [tk PUBLIC_KW]) (S i).
Proof. case (unfold visibility_modifier, opt_inner_public_modifier). Qed.
Lemma case_vis_public_package : forall i, K i PUBLIC_KW -> K (S i) L_PAREN -> kw (S (S i)) "package" -> K (S (S (S i))) R_PAREN -> P Vis i (N VISIBILITY_MODIFIER [tk PUBLIC_KW; tk L_PAREN; tk PACKAGE_KW; tk R_PAREN]) (S (S (S (S i)))).
Proof. case (unfold visibility_modifier, opt_inner_public_modifier). Qed.
Lemma case_vis_public_kw : forall i k, In k [FRIEND_KW; SCRIPT_KW] -> K i PUBLIC_KW -> K (S i) L_PAREN -> K (S (S i)) k -> K (S (S (S i))) R_PAREN -> P Vis i (N VISIBILITY_MODIFIER [tk PUBLIC_KW; tk L_PAREN; tk k; tk R_PAREN]) (S (S (S (S i)))).
Proof. intros i k I. destruct I as [<-|[<-|[]]]; case (unfold visibility_modifier, opt_inner_public_modifier). Qed.
Lemma case_vis_friend : forall i, K i FRIEND_KW -> P Vis i (N VISIBILITY_MODIFIER [tk FRIEND_KW]) (S i).
Proof. case (unfold visibility_modifier, opt_inner_public_modifier). Qed.
Lemma case_vis_package : forall i, kw i "package" -> P Vis i (N VISIBILITY_MODIFIER [tk PACKAGE_KW]) (S i).
Proof. case (unfold visibility_modifier, opt_inner_public_modifier). Qed.
Lemma case_ov_none : forall i, P OVis i [] i.
Proof. exact (fun _ => Logic.I). Qed.
Lemma case_ov_some : forall i c j, der Vis i c j -> P Vis i c j -> P OVis i c j.
Proof. intros. exact Logic.I. Qed.
Lemma case_mod_vis : forall i c j, der Vis i c j -> P Vis i c j -> P Mod_ i c j.
Proof. case (unfold mod_step). Qed.
Lemma case_mod_kw : forall i k, In k [NATIVE_KW; INLINE_KW] -> K i k -> P Mod_ i [tk k] (S i).
Proof. intros i k I. destruct I as [<-|[<-|[]]]; case (unfold mod_step, visibility_modifier). Qed.
Lemma case_mod_entry : forall i, kw i "entry" -> P Mod_ i [tk ENTRY_KW] (S i).
Proof. case (unfold mod_step, visibility_modifier). Qed.
Lemma case_mods_nil : forall i, K i FUN_KW -> P Mods i [] i.
Proof. enter. eapply it_break; [rewrite H; cbn; intuition discriminate|eapply r_eq; [unfold mod_step, visibility_modifier; go|fin|fin]]. Qed.
Lemma mods_head : forall j l k, der Mods j l k -> In (kind_at T j) MK.
Proof. intros j l k H. inversion H; subst; facts; open_facts; prep; [rewrite H0; cbn; tauto|unfold MK; wide]. Qed.
Lemma case_mods_cons : forall i c j l k, der Mod_ i c j -> P Mod_ i c j -> der Mods j l k -> P Mods j l k -> P Mods i (c ++ l) k.
Proof. enter. pose proof (mods_head _ _ _ H1) as A. eapply it_go; [nin|eapply H0; envs|lia|lia|left; nrs|apply H2; assumption]. Qed.
Lemma case_param_id : forall i t j, id i -> K (S i) COLON -> der (Type_ true) (S (S i)) t j -> P (Type_ true) (S (S i)) t j -> P Param i (N PARAM (IPAT ++ tk COLON :: t)) j.
Proof. case (unfold param, ident_pat_or_recover, type_, type_or_recover). Qed.
Lemma case_param_wild : forall i t j, K i UNDERSCORE -> K (S i) COLON -> der (Type_ true) (S (S i)) t j -> P (Type_ true) (S (S i)) t j -> P Param i (N PARAM (WPAT ++ tk COLON :: t)) j.
Proof. case (unfold param, ident_pat_or_recover, type_, type_or_recover). Qed.
Lemma case_params : forall i l j, K i L_PAREN -> der (Comma Param R_PAREN) (S i) l j -> P (Comma Param R_PAREN) (S i) l j -> P Params i (N PARAM_LIST (tk L_PAREN :: l ++ [tk R_PAREN])) (S j).
Proof. case (unfold fun_param_list). Qed.
Lemma case_ret_none : forall i, ~ K i COLON -> P RetTy i [] i.
Proof. case (unfold opt_ret_type). Qed.
Lemma case_ret_some : forall i t j, K i COLON -> der (Type_ true) (S i) t j -> P (Type_ true) (S i) t j -> P RetTy i (N RET_TYPE (tk COLON :: t)) j.
Proof. case (unfold opt_ret_type, type_, type_or_recover). Qed.
Lemma case_acq_none : forall i, ~ K i ACQUIRES_KW -> P Acq i [] i.
Proof. case idtac. Qed.
Lemma case_acq_some : forall i l j, K i ACQUIRES_KW -> der PathTys (S i) l j -> P PathTys (S i) l j -> among j [L_CURLY; SEMICOLON] -> P Acq i (N ACQUIRES (tk ACQUIRES_KW :: l)) j.
Proof.
  enter. eapply r_eq. { stp. unfold acquires. stps. unfold delimited. apply r_outer. apply (r_any e (S i) _ j l (eq tt)). apply r_loop. apply H1; [envs|lia|match goal with S : incl _ _ |- _ => apply S; wide end|oth]. all: stps. } fin. fin.
Qed.
(** a list without a closing token *)
Lemma delim_last : forall e el msg i j cs b, e_texts e = X -> kind_at T i <> EOF -> rd T (under (rs_of [COMMA]) e) i el j cs (eq true) -> In (kind_at T j) (rs_kinds (e_rs e)) -> kind_at T j <> COMMA ->
  rd T e i (delim_step el COMMA msg None (e_rs e) b) j cs (eq (inr tt)).
Proof.
  intros e el msg i j cs b EX NE H I NC. unfold delim_step. apply r_ask with (b := false); [eapply sees_is; [apply sees_or; [now apply sees_at1|apply sees_ts; reflexivity]|]; now rewrite eqb_false by exact NE|].
  cbv iota. apply r_pos. rewrite <- (app_nil_r cs). eapply r_seq; [apply r_with; exact H|]. cbn [negb]. cbv iota. apply r_ret_then. cbv iota.
  apply r_ask with (b := true); [eapply sees_is; [apply (sees_rs (X := X)); exact EX|]|now apply r_ret]. apply rsb_true. cbn. rewrite filter_In. split; [apply in_or_app; auto|]. now rewrite eqb_false by exact NC.
Qed.
Lemma delim_more : forall e el msg i j cs b, e_texts e = X -> kind_at T i <> EOF -> rd T (under (rs_of [COMMA]) e) i el j cs (eq true) -> kind_at T j = COMMA -> i <= j -> away T X e (S j) ->
  rd T e i (delim_step el COMMA msg None (e_rs e) b) (S j) (cs ++ [tk COMMA]) (eq (inl false)).
Proof.
  intros e el msg i j cs b EX NE H KC LE [A1 A2]. unfold delim_step. apply r_ask with (b := false); [eapply sees_is; [apply sees_or; [now apply sees_at1|apply sees_ts; reflexivity]|]; now rewrite eqb_false by exact NE|].
  cbv iota. apply r_pos. eapply r_seq; [apply r_with; exact H|]. cbn [negb]. cbv iota. apply r_ret_then. cbv iota.
  apply r_ask with (b := false); [eapply sees_is; [apply (sees_rs (X := X)); exact EX|]; apply rsb_false; [cbn; rewrite filter_In, KC; intros [_ E]; discriminate|intros Q; congruence]|]. cbv iota.
  rewrite <- (app_nil_r [tk COMMA]). eapply r_seq; [now apply r_expect|].
  apply r_ask with (b := false); [apply sees_and_r; eapply sees_is; [apply (sees_rs (X := X)); exact EX|]; apply rsb_false; cbn; [rewrite filter_In, app_nil_r; tauto|rewrite app_nil_r; exact A2]|]. cbv iota. apply r_pos. destruct (Nat.eqb_spec (S j) i); [lia|]. now apply r_ret.
Qed.
Lemma r_path_type : forall i p j, head i -> der (Path (MTy true)) i p j -> P (Path (MTy true)) i p j -> forall n e, ok (TK true) e -> 3 * (j - i) < n -> rd T e i (path_type (run n)) j (N PATH_TYPE p) (eq true).
Proof. intros i p j HD D H n e O L. facts. open_facts. prep. eapply r_eq. { unfold path_type. apply r_ask with (b := true); [apply path_start; [exact HD|wide]|]. cbv iota. unfold GrammarModel.path. go. } fin. fin. Qed.
Lemma case_pts_one : forall i p j, head i -> der (Path (MTy true)) i p j -> P (Path (MTy true)) i p j -> P PathTys i (N PATH_TYPE p) j.
Proof. intros i p j HD D H n e O L I NC b. pose proof HD as HD'. facts. open_facts. prep. apply turn_end. apply delim_last; [texts|oth|apply r_path_type; [assumption|assumption|assumption|envs|lia]|assumption|assumption]. Qed.
Lemma case_pts_more : forall i p j l k, head i -> der (Path (MTy true)) i p j -> P (Path (MTy true)) i p j -> K j COMMA -> der PathTys (S j) l k -> P PathTys (S j) l k -> P PathTys i (N PATH_TYPE p ++ tk COMMA :: l) k.
Proof.
  intros i p j l k HD D H KC D2 H2 n e O L I NC b. pose proof HD as HD'. facts. open_facts. prep. replace (N PATH_TYPE p ++ tk COMMA :: l) with ((N PATH_TYPE p ++ [tk COMMA]) ++ l) by (rewrite <- app_assoc; reflexivity).
  eapply turn_go with (j := S j); [apply delim_more; [texts|oth|apply r_path_type; [assumption|assumption|assumption|envs|lia]|assumption|lia|aw]|lia|apply next_at; congruence|apply H2; [assumption|lia|assumption|assumption]].
Qed.
Lemma case_fb_block : forall i c j, der Block i c j -> P Block i c j -> P FBody i c j.
Proof. enter. solo. case (unfold fun_body). Qed.
Lemma case_fb_semi : forall i, K i SEMICOLON -> P FBody i [tk SEMICOLON] (S i).
Proof. case (unfold fun_body). Qed.
(** * Items *)
(** what an item begins with after its visibility *)
Definition begins (i : nat) : Prop := In (kind_at T i) [STRUCT_KW; CONST_KW; FUN_KW; NATIVE_KW; INLINE_KW] \/ kw i "enum" \/ kw i "entry".
Lemma begins_in : forall i, begins i -> In (kind_at T i) [STRUCT_KW; CONST_KW; FUN_KW; NATIVE_KW; INLINE_KW; IDENT].
Proof. intros i [H|[[H _]|[H _]]]; [wide|rewrite H; cbn; tauto|rewrite H; cbn; tauto]. Qed.
Lemma no_vis : forall e i, e_texts e = X -> begins i -> rd T e i (vis_step tt) i [] (eq (false, tt)).
Proof. intros e i EX [H|[[H W]|[H W]]]; unfold ShapeSpec.K in *; (eapply r_eq; [unfold vis_step, visibility_modifier; stps|fin|fin]). Qed.
Definition after_vis (R : recs) : M (option closing) :=
  IF cur STRUCT_KW THEN some_closing (struct_ R) ELSE
  IF cur CONST_KW THEN some_closing (const_ R) ELSE
  IF cur_kw "enum" THEN some_closing (enum_ R) ELSE
  some_closing (function R).
Lemma at_vis : forall n e j v k m cs Q, inner X e -> der Vis j v k -> P Vis j v k -> begins k -> rd T e k (after_vis (run n)) m cs Q -> rd T e j (opt_item (run n)) m (v ++ cs) Q.
Proof.
  intros n e j v k m cs Q O D H B W. assert (EX : e_texts e = X) by apply O. pose proof (begins_in _ B) as BI. unfold opt_item. fold vis_step. fold (after_vis (run n)).
  assert (ITS : rd T e j (iterate_to_EOF [] vis_step tt) k v (eq tt)).
  { apply r_iter. rewrite <- (app_nil_r v). facts. open_facts. prep. eapply it_go with (s' := tt) (j := k); [nin|unfold vis_step; eapply r_eq; [eapply r_seq; [eapply H; envs|]; stps|fin|fin]|lia|lia|left; eapply (ok_nin T X); [|exact BI]; envs|]. eapply it_break; [nin|apply no_vis; [texts|exact B]]. }
  assert (F : sees e T j (t_and (t_cur FRIEND_KW) (t_not (rs_nth 1 (rs_union (plus_ts vis_modifier_item_start [INLINE_KW; NATIVE_KW]) (rs_kw "entry"))))) false).
  { destruct (kind_eqb_reflect (kind_at T j) FRIEND_KW) as [KF|KF]; [|apply sees_and_l; look]. inversion D; subst; prep; try congruence. apply sees_and_r. eapply sees_is; [apply sees_not; apply (sees_rs1 (X := X)); exact EX|].
    enough (Z : rsb (T := T) (X := X) (rs_union (plus_ts vis_modifier_item_start [INLINE_KW; NATIVE_KW]) (rs_kw "entry")) (S j) = true) by (rewrite Z; reflexivity).
    destruct B as [B|[[B1 B2]|[B1 B2]]]; [apply rsb_true; cbn in B |- *; tauto| |]; unfold rsb; rewrite B1, B2; vm_compute; reflexivity. }
  clear H. inversion D; subst; prep; no; no; (apply r_ask with (b := false); [exact F|cbv iota]); no; no; no; no; yes; (eapply r_seq; [exact ITS|]); exact W.
Qed.
Lemma item_of : forall n e i a j k cs kd, inner X e -> der Attrs i a j -> P Attrs i a j -> j <= k -> 3 * (k - i) < n -> rd T e j (opt_item (run n)) k cs (eq (Some (Complete kd))) -> okk kd = true -> kind_at T k <> SEMICOLON ->
  rd T e i (item (run n)) k (N kd (a ++ cs)) any.
Proof.
  intros n e i a j k cs kd O D H LE L W OK NS. facts. open_facts. prep. eapply r_eq. { unfold item. stp. { at_. eapply r_seq; [exact W|]. cbv iota. stps. } all: stps. exact OK. } fin. fin.
Qed.
Lemma some_of : forall e m i j cs c, rd T e i m j cs (eq c) -> rd T e i (some_closing m) j cs (eq (Some c)).
Proof. intros e m i j cs c H. unfold some_closing. rewrite <- (app_nil_r cs). eapply r_seq; [exact H|]. now apply r_ret. Qed.
Lemma case_i_use : forall i a j u k, der Attrs i a j -> P Attrs i a j -> K j USE_KW -> der USpeck (S j) u k -> P USpeck (S j) u k -> K k SEMICOLON -> P Item i (N USE_STMT (a ++ tk USE_KW :: u ++ [tk SEMICOLON])) (S k).
Proof. enter. eapply item_of; [eassumption|eassumption|eassumption|lia|lia| |reflexivity|assumption]. eapply r_eq. { unfold opt_item. yes. apply some_of. unfold use_rest, use_speck. go. } fin. fin. Qed.
Lemma case_i_friend : forall i a j p k, der Attrs i a j -> P Attrs i a j -> K j FRIEND_KW -> head (S j) -> ~ kw (S j) "entry" -> der (Path MNone) (S j) p k -> P (Path MNone) (S j) p k -> K k SEMICOLON -> P Item i (N FRIEND (a ++ tk FRIEND_KW :: p ++ [tk SEMICOLON])) (S k).
Proof.
  enter. eapply item_of; [eassumption|eassumption|eassumption|lia|lia| |reflexivity|assumption]. assert (EX : e_texts e = X) by texts. eapply r_eq. { unfold opt_item. no. no. apply r_ask with (b := true); [|cbv iota].
  { eapply sees_is; [apply sees_and; [apply (sees_cur e T); exact H1|apply sees_not; apply (sees_rs1 (X := X)); exact EX]|]. rewrite (rsb_false (T := T) (X := X)); [reflexivity|change (~ In (kind_at T (S j)) [FUN_KW; STRUCT_KW; CONST_KW; INLINE_KW; NATIVE_KW]); nin|]. intros Q I. change (In (word X (S j)) [str "enum"; str "entry"]) in I. destruct I as [I|[I|[]]]; [elim (H22 Q "enum"%string); [cbn; tauto|now symmetry]|apply H3; split; [exact Q|now symmetry]]. }
  apply some_of. unfold friend_decl, GrammarModel.path. go. } fin. fin.
Qed.
Lemma r_const : forall n e k ty m t c q, inner X e -> K k CONST_KW -> id (S k) -> K (S (S k)) COLON -> der (Type_ true) (S (S (S k))) ty m -> P (Type_ true) (S (S (S k))) ty m -> K m EQ -> der (Ex 1 t) (S m) c q -> P (Ex 1 t) (S m) c q -> K q SEMICOLON ->
  3 * (S q - k) < n -> rd T e k (const_ (run n)) (S q) (tk CONST_KW :: NAME_ ++ tk COLON :: ty ++ N INITIALIZER (tk EQ :: c) ++ [tk SEMICOLON]) (eq (Complete CONST)).
Proof. enter. eapply r_eq. { unfold const_, type_annotation, initializer_expr. go. } fin. fin. Qed.
Lemma r_struct : forall n e k p m h q l r s z, inner X e -> K k STRUCT_KW -> id (S k) -> der TParams (S (S k)) p m -> P TParams (S (S k)) p m -> der Has m h q -> P Has m h q -> K q L_CURLY ->
  der (Comma Field R_CURLY) (S q) l r -> P (Comma Field R_CURLY) (S q) l r -> der HasSemi (S r) s z -> P HasSemi (S r) s z -> 3 * (z - k) < n ->
  rd T e k (struct_ (run n)) z (tk STRUCT_KW :: NAME_ ++ p ++ h ++ N NAMED_FIELD_LIST (tk L_CURLY :: l ++ [tk R_CURLY]) ++ s) (eq (Complete STRUCT)).
Proof. enter. eapply r_eq. { unfold struct_. go. { eapply r_named; [envs|eassumption|eassumption|eassumption|lia]. } go. } fin. fin. Qed.
Lemma r_struct_unit : forall n e k p m, inner X e -> K k STRUCT_KW -> id (S k) -> der TParams (S (S k)) p m -> P TParams (S (S k)) p m -> K m SEMICOLON -> 3 * (S m - k) < n ->
  rd T e k (struct_ (run n)) (S m) (tk STRUCT_KW :: NAME_ ++ p ++ [tk SEMICOLON]) (eq (Complete STRUCT)).
Proof. enter. eapply r_eq. { unfold struct_, opt_abilities_list. go. } fin. fin. Qed.
Lemma r_struct_tuple : forall n e k p m h q l r s z, inner X e -> K k STRUCT_KW -> id (S k) -> der TParams (S (S k)) p m -> P TParams (S (S k)) p m -> der Has m h q -> P Has m h q -> K q L_PAREN ->
  der (Comma TField R_PAREN) (S q) l r -> P (Comma TField R_PAREN) (S q) l r -> der Has (S r) s z -> P Has (S r) s z -> K z SEMICOLON -> 3 * (S z - k) < n ->
  rd T e k (struct_ (run n)) (S z) (tk STRUCT_KW :: NAME_ ++ p ++ h ++ N TUPLE_FIELD_LIST (tk L_PAREN :: l ++ [tk R_PAREN]) ++ s ++ [tk SEMICOLON]) (eq (Complete STRUCT)).
Proof. enter. eapply r_eq. { unfold struct_. go. eapply r_then; [eapply r_tuple; [envs|eassumption|eassumption|eassumption|lia]|]. go. } fin. fin. Qed.
Lemma r_enum : forall n e k p m h q l r s z, inner X e -> kw k "enum" -> id (S k) -> der TParams (S (S k)) p m -> P TParams (S (S k)) p m -> der Has m h q -> P Has m h q -> K q L_CURLY ->
  der Vars (S q) l r -> P Vars (S q) l r -> der HasSemi (S r) s z -> P HasSemi (S r) s z -> 3 * (z - k) < n ->
  rd T e k (enum_ (run n)) z (tk ENUM_KW :: NAME_ ++ p ++ h ++ N VARIANT_LIST (tk L_CURLY :: l ++ [tk R_CURLY]) ++ s) (eq (Complete ENUM)).
Proof. enter. eapply r_eq. { unfold enum_, enum_variant_list. go. fold (variant_step (run n)). eapply r_seq; [apply (r_iter e); apply H8; [envs|lia]|]. all: go. } fin. fin. Qed.
Lemma r_fun : forall n e k d m p q l r t w u x b z, inner X e -> der Mods k d m -> P Mods k d m -> id (S m) -> der TParams (S (S m)) p q -> P TParams (S (S m)) p q ->
    der Params q l r -> P Params q l r -> der RetTy r t w -> P RetTy r t w -> der Acq w u x -> P Acq w u x -> der FBody x b z -> P FBody x b z -> 3 * (z - k) < n ->
  rd T e k (function (run n)) z (d ++ tk FUN_KW :: NAME_ ++ p ++ l ++ t ++ u ++ b) (eq (Complete FUN)).
Proof.
  enter. assert (NB : kind_at T w <> L_BRACK) by (match goal with H : In (kind_at T w) [ACQUIRES_KW] \/ _ |- _ => destruct H as [W0|W0]; [oth|rewrite W0; oth] end). eapply r_eq. { unfold function, opt_fun_modifiers. fold mod_step. eapply r_seq; [apply (r_iter e); apply H1; envs|]. unfold fun_signature. solo. go. eapply r_seq; [apply r_with; go|]. cbn [negb]. cbv iota. go. } fin. fin.
Qed.
(** with or without a visibility in front *)
Lemma vis_reads : forall i c j, der Vis i c j -> P Vis i c j.
Proof. intros i c j H. inversion H; subst; [apply case_vis_public|apply case_vis_public_package|apply case_vis_public_kw|apply case_vis_friend|apply case_vis_package]; assumption. Qed.
Lemma from_vis : forall n e j v k m cs Q, inner X e -> der OVis j v k -> begins k -> rd T e k (after_vis (run n)) m cs Q -> rd T e k (opt_item (run n)) m cs Q -> rd T e j (opt_item (run n)) m (v ++ cs) Q.
Proof. intros n e j v k m cs Q O D B H1 H2. inversion D; subst; [exact H2|]. eapply at_vis; try eassumption. now apply vis_reads. Qed.
Ltac item := eapply item_of; [eassumption|eassumption|eassumption|lia|lia| |reflexivity|assumption].
Lemma begins_is : forall i k, kind_at T i = k -> GrammarBase.mem k [STRUCT_KW; CONST_KW; FUN_KW; NATIVE_KW; INLINE_KW] = true -> begins i.
Proof. intros i k H M. left. rewrite H. now apply mem_spec. Qed.
Lemma case_i_const : forall i a j v k ty m t c n, der Attrs i a j -> P Attrs i a j -> der OVis j v k -> P OVis j v k -> K k CONST_KW -> id (S k) -> K (S (S k)) COLON -> der (Type_ true) (S (S (S k))) ty m -> P (Type_ true) (S (S (S k))) ty m -> K m EQ -> der (Ex 1 t) (S m) c n -> P (Ex 1 t) (S m) c n -> K n SEMICOLON -> P Item i (N CONST (a ++ v ++ tk CONST_KW :: NAME_ ++ tk COLON :: ty ++ N INITIALIZER (tk EQ :: c) ++ [tk SEMICOLON])) (S n).
Proof.
  intros i a j v k ty m t c n D1 H1 D2 _ K1 I1 K2 D3 H3 K3 D4 H4 K4. enter. item.
  assert (B : rd T e k (const_ (run n0)) (S n) (tk CONST_KW :: NAME_ ++ tk COLON :: ty ++ N INITIALIZER (tk EQ :: c) ++ [tk SEMICOLON]) (eq (Complete CONST))) by (eapply r_const; try eassumption; [split; assumption|lia]).
  apply (from_vis _ _ _ _ _ _ _ _ H D2); [eapply begins_is; [eassumption|reflexivity]| |].
  - unfold after_vis. no. yes. apply some_of. exact B.
  - unfold opt_item. no. yes. apply some_of. exact B.
Qed.
Ltac nof := apply r_ask with (b := false); [apply sees_and_l; solve [look]|cbv iota].
Ltac strukt tac := lazymatch goal with D2 : der OVis _ _ ?k, O : inner X ?e |- rd _ ?e _ (opt_item (run ?n)) ?z (_ ++ ?cs) _ =>
  assert (B : rd T e k (struct_ (run n)) z cs (eq (Complete STRUCT))) by tac;
  apply (from_vis _ _ _ _ _ _ _ _ O D2); [eapply begins_is; [eassumption|reflexivity]|unfold after_vis; yes; apply some_of; exact B|unfold opt_item; no; no; nof; yes; apply some_of; exact B] end.
Lemma case_i_struct : forall i a j v k p m h n l q s r, der Attrs i a j -> P Attrs i a j -> der OVis j v k -> P OVis j v k -> K k STRUCT_KW -> id (S k) -> der TParams (S (S k)) p m -> P TParams (S (S k)) p m -> der Has m h n -> P Has m h n -> K n L_CURLY -> der (Comma Field R_CURLY) (S n) l q -> P (Comma Field R_CURLY) (S n) l q -> der HasSemi (S q) s r -> P HasSemi (S q) s r -> P Item i (N STRUCT (a ++ v ++ tk STRUCT_KW :: NAME_ ++ p ++ h ++ N NAMED_FIELD_LIST (tk L_CURLY :: l ++ [tk R_CURLY]) ++ s)) r.
Proof.
  enter. item. strukt ltac:(eapply r_struct; try eassumption; [split; assumption|lia]).
Qed.
Lemma case_i_struct_unit : forall i a j v k p m, der Attrs i a j -> P Attrs i a j -> der OVis j v k -> P OVis j v k -> K k STRUCT_KW -> id (S k) -> der TParams (S (S k)) p m -> P TParams (S (S k)) p m -> K m SEMICOLON -> P Item i (N STRUCT (a ++ v ++ tk STRUCT_KW :: NAME_ ++ p ++ [tk SEMICOLON])) (S m).
Proof.
  enter. item. strukt ltac:(eapply r_struct_unit; try eassumption; [split; assumption|lia]).
Qed.
Lemma case_i_struct_tuple : forall i a j v k p m h n l q s r, der Attrs i a j -> P Attrs i a j -> der OVis j v k -> P OVis j v k -> K k STRUCT_KW -> id (S k) -> der TParams (S (S k)) p m -> P TParams (S (S k)) p m -> der Has m h n -> P Has m h n -> K n L_PAREN -> der (Comma TField R_PAREN) (S n) l q -> P (Comma TField R_PAREN) (S n) l q -> der Has (S q) s r -> P Has (S q) s r -> K r SEMICOLON -> P Item i (N STRUCT (a ++ v ++ tk STRUCT_KW :: NAME_ ++ p ++ h ++ N TUPLE_FIELD_LIST (tk L_PAREN :: l ++ [tk R_PAREN]) ++ s ++ [tk SEMICOLON])) (S r).
Proof.
  enter. item. strukt ltac:(eapply r_struct_tuple; try eassumption; [split; assumption|lia]).
Qed.
Lemma case_i_enum : forall i a j v k p m h n l q s r, der Attrs i a j -> P Attrs i a j -> der OVis j v k -> P OVis j v k -> kw k "enum" -> id (S k) -> der TParams (S (S k)) p m -> P TParams (S (S k)) p m -> der Has m h n -> P Has m h n -> K n L_CURLY -> der Vars (S n) l q -> P Vars (S n) l q -> der HasSemi (S q) s r -> P HasSemi (S q) s r -> P Item i (N ENUM (a ++ v ++ tk ENUM_KW :: NAME_ ++ p ++ h ++ N VARIANT_LIST (tk L_CURLY :: l ++ [tk R_CURLY]) ++ s)) r.
Proof.
  enter. item. lazymatch goal with D2 : der OVis _ _ ?k, O : inner X ?e |- rd _ ?e _ (opt_item (run ?n)) ?z (_ ++ ?cs) _ =>
  assert (B : rd T e k (enum_ (run n)) z cs (eq (Complete ENUM))) by (eapply r_enum; try eassumption; [split; assumption|split; assumption|lia]);
  apply (from_vis _ _ _ _ _ _ _ _ O D2); [right; left; split; assumption|unfold after_vis; no; no; yes; apply some_of; exact B|unfold opt_item; no; no; nof; no; yes; apply some_of; exact B] end.
Qed.
Lemma entry_next : forall k d m, kw k "entry" -> der Mods k d m -> In (kind_at T (S k)) MK.
Proof.
  intros k d m [K1 W] H. unfold ShapeSpec.K in K1. inversion H; subst; prep; [congruence|]. match goal with D : der Mod_ k _ ?j, M : der Mods ?j _ _ |- _ => assert (Q : j = S k); [inversion D; subst; prep|rewrite <- Q; eapply mods_head; exact M] end; [|match goal with I : In _ [NATIVE_KW; INLINE_KW] |- _ => cbn in I; intuition congruence end|reflexivity].
  match goal with D : der Vis k _ _ |- _ => inversion D; subst; prep; congruence end.
Qed.
Lemma case_i_fun : forall i a j v k d m p n l q r w u x b z, der Attrs i a j -> P Attrs i a j -> der OVis j v k -> P OVis j v k -> among k [FUN_KW; NATIVE_KW; INLINE_KW] \/ kw k "entry" -> der Mods k d m -> P Mods k d m -> id (S m) -> der TParams (S (S m)) p n -> P TParams (S (S m)) p n -> der Params n l q -> P Params n l q -> der RetTy q r w -> P RetTy q r w -> der Acq w u x -> P Acq w u x -> der FBody x b z -> P FBody x b z -> P Item i (N FUN (a ++ v ++ d ++ tk FUN_KW :: NAME_ ++ p ++ l ++ r ++ u ++ b)) z.
Proof.
  intros i a j v k d m p n l q r w u x b z D1 H1 D2 _ BE D3 H3 ID D4 H4 D5 H5 D6 H6 D7 H7 D8 H8 n0 e O L NS. enter. item. 
  match goal with |- rd _ _ _ _ _ (_ ++ ?cs) _ => assert (B : rd T e k (function (run n0)) z cs (eq (Complete FUN))) by (eapply r_fun; try eassumption; [split; assumption|lia]) end.
  assert (B' : begins k) by (destruct BE as [BE|BE]; [left; unfold ShapeSpec.among in BE; wide|right; right; exact BE]).
  apply (from_vis _ _ _ _ _ _ _ _ O D2 B').
  - unfold after_vis. destruct BE as [BE|[BK BW]]; unfold ShapeSpec.among, ShapeSpec.K in *; no; no; no; apply some_of; exact B.
  - unfold opt_item. destruct BE as [BE|[BK BW]]; unfold ShapeSpec.among, ShapeSpec.K in *.
    + destruct BE as [BE|[BE|[BE|[]]]]; symmetry in BE; no; no; nof; no; no; [yes|no; yes|no; yes]; apply some_of; exact B.
    + pose proof (entry_next k d m (conj BK BW) D3) as EN. no. no. nof. no. no. no. yes. apply some_of. exact B.
Qed.
Lemma case_items_nil : forall i, K i R_CURLY -> P Items i [] i.
Proof. enter. apply it_stop. rewrite H. cbn. tauto. Qed.
Definition starts : list kind := [POUND; USE_KW; FRIEND_KW; PUBLIC_KW; IDENT; CONST_KW; STRUCT_KW; FUN_KW; NATIVE_KW; INLINE_KW].
Lemma items_head : forall j l k, der Items j l k -> In (kind_at T j) (R_CURLY :: starts).
Proof. intros j l k H. inversion H; subst; facts; open_facts; prep; [left; symmetry; assumption|right; assumption]. Qed.
Lemma case_items_cons : forall i c j l k, der Item i c j -> P Item i c j -> ~ K j SEMICOLON -> der Items j l k -> P Items j l k -> P Items i (c ++ l) k.
Proof. enter. pose proof (items_head _ _ _ H2) as A. eapply it_go; [nin|unfold item_step; eapply r_eq; [go|reflexivity|fin]|lia|lia|eapply nrs_inner; eassumption|apply H3; [assumption|lia]]. Qed.
(** * Files *)
Lemma case_addr_num : forall i, K i INT_NUMBER -> P Addr i (N VALUE_ADDRESS [tk INT_NUMBER]) (S i).
Proof. case (unfold any_address). Qed.
Lemma case_addr_name : forall i, K i IDENT -> P Addr i (N NAMED_ADDRESS [tk IDENT]) (S i).
Proof. case (unfold any_address). Qed.
Lemma r_items : forall n e j l k, inner X e -> K j L_CURLY -> der Items (S j) l k -> P Items (S j) l k -> 3 * (S k - j) < n -> rd T e j (item_list (run n)) (S k) (tk L_CURLY :: l ++ [tk R_CURLY]) any.
Proof. enter. eapply r_eq. { unfold item_list. fold (item_step (run n)). stps. eapply r_seq; [apply (r_iter e); apply H2; [envs|lia]|]. stps. } fin. fin. Qed.
Lemma addr_one : forall i a j, der Addr i a j -> j = S i. 
Proof. intros i a j H. inversion H; reflexivity. Qed.
Ltac its_ := match goal with H : P Items (S ?j) _ _ |- rd _ _ ?j (mbind (item_list _) _) _ _ _ => eapply r_then; [eapply r_items; [envs|eassumption|eassumption|eassumption|lia]|] end.
Lemma case_module_addr : forall i a j l k, K i MODULE_KW -> der Addr (S i) a j -> P Addr (S i) a j -> K j COLON_COLON -> id (S j) -> K (S (S j)) L_CURLY -> der Items (S (S (S j))) l k -> P Items (S (S (S j))) l k -> P Module_ i (tk MODULE_KW :: a ++ tk COLON_COLON :: NAME_ ++ tk L_CURLY :: l ++ [tk R_CURLY]) (S k).
Proof. enter. pose proof (addr_one _ _ _ H0); subst. eapply r_eq. { unfold module. go. its_. go. } fin. fin. Qed.
Lemma case_module_bare : forall i l k, K i MODULE_KW -> id (S i) -> K (S (S i)) L_CURLY -> der Items (S (S (S i))) l k -> P Items (S (S (S i))) l k -> P Module_ i (tk MODULE_KW :: NAME_ ++ tk L_CURLY :: l ++ [tk R_CURLY]) (S k).
Proof. enter. eapply r_eq. { unfold module. go. its_. go. } fin. fin. Qed.
Lemma case_modules_nil : forall i, K i R_CURLY -> P Modules i [] i.
Proof. enter. apply it_stop. rewrite H. cbn. tauto. Qed.
Lemma modules_head : forall j l k, der Modules j l k -> In (kind_at T j) [R_CURLY; POUND; MODULE_KW].
Proof.
  intros j l k H. inversion H; subst; facts; open_facts; prep; [left; symmetry; assumption|]. match goal with H : In (kind_at T j) [POUND] \/ _ |- _ => destruct H as [W0|W0]; [wide|rewrite W0; wide] end.
Qed.
Lemma case_modules_cons : forall i a j m k l n, der Attrs i a j -> P Attrs i a j -> der Module_ j m k -> P Module_ j m k -> der Modules k l n -> P Modules k l n -> P Modules i (N MODULE (a ++ m) ++ l) n.
Proof.
  enter. pose proof (modules_head _ _ _ H3) as A. assert (B : In (kind_at T i) [POUND; MODULE_KW]) by (match goal with H : In (kind_at T i) [POUND] \/ _ |- _ => destruct H as [W0|W0]; [wide|rewrite W0; wide] end). solo.
  eapply it_go with (j := k); [nin|unfold modules_step; eapply r_eq; [stp; [at_; go|go..]|fin|fin]|lia|lia|eapply nrs_inner; eassumption|apply H4; [assumption|lia]].
Qed.
Lemma case_top_module : forall i a j m k, der Attrs i a j -> P Attrs i a j -> der Module_ j m k -> P Module_ j m k -> P Top i (N MODULE (a ++ m)) k.
Proof. enter. solo. eapply r_eq. { unfold top_item. stp. { at_. go. } all: go. } fin. fin. Qed.
Lemma case_top_script : forall i a j l k, der Attrs i a j -> P Attrs i a j -> K j SCRIPT_KW -> K (S j) L_CURLY -> der Items (S (S j)) l k -> P Items (S (S j)) l k -> P Top i (N SCRIPT (a ++ tk SCRIPT_KW :: tk L_CURLY :: l ++ [tk R_CURLY])) (S k).
Proof. enter. eapply r_eq. { unfold top_item, script. stp. { at_. go. its_. go. } all: go. } fin. fin. Qed.
Lemma case_top_address : forall i a j d k l m, der Attrs i a j -> P Attrs i a j -> kw j "address" -> der Addr (S j) d k -> P Addr (S j) d k -> K k L_CURLY -> der Modules (S k) l m -> P Modules (S k) l m -> P Top i (N ADDRESS_DEF (a ++ tk ADDRESS_KW :: d ++ tk L_CURLY :: l ++ [tk R_CURLY])) (S m).
Proof. enter. eapply r_eq. { unfold top_item, address_def. fold (modules_step (run n)). stp. { at_. go. eapply r_seq; [apply (r_iter e); apply H6; [envs|lia]|]. go. } all: go. } fin. fin. Qed.
Lemma case_file_nil : forall i, K i EOF -> P File i [] i.
Proof. enter. apply it_stop. rewrite H. cbn. tauto. Qed.
Lemma file_head : forall j l k, der File j l k -> In (kind_at T j) [EOF; POUND; MODULE_KW; SCRIPT_KW; IDENT].
Proof. intros j l k H. inversion H; subst; facts; open_facts; prep; [left; symmetry; assumption|right; assumption]. Qed.
Lemma inner_nil : forall e, inner X e -> inner X (under (rs_of []) e).
Proof. intros e (H1 & H2 & H3 & H4). split; [exact H1|split; [exact H2|split]]; cbn; rewrite app_nil_r; assumption. Qed.
Lemma case_file_cons : forall i c j l k, der Top i c j -> P Top i c j -> der File j l k -> P File j l k -> P File i (c ++ l) k.
Proof. enter. pose proof (file_head _ _ _ H1) as A. eapply it_go with (j := j); [nin|unfold top_step; eapply r_eq; [eapply r_then; [apply H0; [apply inner_nil; assumption|lia]|]; stps|fin|fin]|lia|lia|left; eapply (ok_nin T X); [|exact A]; envs|apply H2; [assumption|lia]]. Qed.
End Cases.
